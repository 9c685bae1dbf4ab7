(** Proofs about the matrix archive. *)
From Coq Require Import ZArith List Lia Bool ZifyBool.
From Verif Require Import Base OMap MatArchiveModel MatArchiveSpec.
Import ListNotations.
Open Scope Z_scope.

(** * Names *)
Lemma letter_spec c : isalpha c = true <-> letter c.
Proof. unfold isalpha, letter. lia. Qed.
Lemma alnum_spec c : (isalnum c || (c =? 95)) = true <-> letter c \/ digit c \/ c = 95.
Proof. unfold isalnum, isalpha, letter, digit. lia. Qed.

Lemma valid_name_spec n : valid_name n = true <-> name_ok n.
Proof.
  unfold valid_name, name_ok, fixed_name_size. rewrite !andb_true_iff. split.
  - intros [[H1 H2] H3]. split; [lia|]. destruct n as [|c r]; [discriminate|].
    exists c, r. split; [reflexivity|]. apply andb_true_iff in H3. destruct H3 as [H3 H4].
    split; [now apply letter_spec|]. apply Forall_forall. intros d Hd.
    apply alnum_spec. rewrite forallb_forall in H4. now apply H4.
  - intros [H1 (c & r & -> & H2 & H3)]. split; [lia|]. apply andb_true_iff.
    split; [now apply letter_spec|]. apply forallb_forall. intros d Hd.
    apply alnum_spec. rewrite Forall_forall in H3. now apply H3.
Qed.

Lemma name_chars n : name_ok n -> Forall (fun d => letter d \/ digit d \/ d = 95) n.
Proof. intros (_ & c & r & -> & H1 & H2). constructor; auto. Qed.

(** * Bytes *)
Lemma bytes_of_length k n : length (bytes_of k n) = k.
Proof. revert n. induction k; cbn; auto. Qed.

Lemma value_bytes k n : 0 <= n < 256 ^ Z.of_nat k -> value_of (bytes_of k n) = n.
Proof.
  revert n. induction k as [|k IH]; intros n H; cbn [bytes_of value_of].
  - cbn in H. lia.
  - rewrite Nat2Z.inj_succ, Z.pow_succ_r in H by lia.
    pose proof (Z.div_mod n 256 ltac:(lia)).
    rewrite IH; [lia|]. split; [apply Z.div_pos; lia|]. apply Z.div_lt_upper_bound; lia.
Qed.

Lemma u32_id x : 0 <= x < 2 ^ 32 -> cast_u32 x = x.
Proof. intros H. apply Z.mod_small. exact H. Qed.
Lemma u64_id x : 0 <= x < 2 ^ 64 -> cast_u64 x = x.
Proof. intros H. apply Z.mod_small. exact H. Qed.

Lemma flat_bytes_length l : length (flat_map (bytes_of 8) l) = (8 * length l)%nat.
Proof. induction l as [|x l IH]; [reflexivity|]. cbn [flat_map]. rewrite app_length, bytes_of_length, IH. cbn [length]. lia. Qed.

Lemma cut_app {A} n (x y : list A) : length x = n -> firstn n (x ++ y) = x /\ skipn n (x ++ y) = y.
Proof.
  intros <-. rewrite firstn_app, firstn_all, Nat.sub_diag, skipn_app, skipn_all, Nat.sub_diag. cbn [firstn skipn app].
  now rewrite app_nil_r.
Qed.

Lemma cells_bytes l : Forall (fun x => 0 <= x < 2 ^ 64) l -> cells_of (length l) (flat_map (bytes_of 8) l) = l.
Proof.
  induction 1 as [|x l Hx H IH]; [reflexivity|].
  cbn [length cells_of flat_map].
  destruct (cut_app 8 (bytes_of 8 x) (flat_map (bytes_of 8) l) (bytes_of_length _ _)) as [-> ->].
  now rewrite value_bytes, IH by exact Hx.
Qed.

(** * Reading *)
Lemma read_app k x y : Z.of_nat (length x) = k -> read k (x ++ y) = Ok (x, y).
Proof.
  intros <-. unfold read. rewrite app_length. destruct (Z.ltb_spec (Z.of_nat (length x + length y)) (Z.of_nat (length x))); [lia|].
  rewrite Nat2Z.id, firstn_app, firstn_all, Nat.sub_diag, skipn_app, skipn_all, Nat.sub_diag. cbn [firstn skipn app].
  now rewrite app_nil_r.
Qed.

(** More bytes behind do not change what is read. *)
Lemma read_more k f g : match read k f with
  | Ok (x, r) => read k (f ++ g) = Ok (x, r ++ g)
  | UB => True
  | _ => False end.
Proof.
  unfold read. destruct (Z.ltb_spec (Z.of_nat (length f)) k) as [H|H]; [exact Logic.I|].
  rewrite app_length. destruct (Z.ltb_spec (Z.of_nat (length f + length g)) k) as [H'|H']; [lia|].
  rewrite firstn_app, skipn_app. replace (Z.to_nat k - length f)%nat with 0%nat by lia. cbn [firstn skipn].
  now rewrite app_nil_r.
Qed.

Lemma drop_space_id n : match n with [] => True | c :: _ => isspace c = false end -> drop_space n = n.
Proof. destruct n as [|c r]; cbn; auto. intros ->. reflexivity. Qed.

Lemma drop_pad k n : drop_space (repeat 32 k ++ n) = drop_space n.
Proof. induction k as [|k IH]; cbn [repeat app drop_space]; auto. Qed.

Lemma char_not_space c : letter c \/ digit c \/ c = 95 -> isspace c = false.
Proof. unfold letter, digit, isspace. lia. Qed.

Lemma c_str_id n : Forall (fun c => c <> 0) n -> c_str n = n.
Proof. induction 1 as [|c r H _ IH]; cbn; auto. apply Z.eqb_neq in H. now rewrite H, IH. Qed.

Lemma padded_length n : name_ok n -> Z.of_nat (length (padded n)) = fixed_name_size.
Proof. intros [H _]. unfold padded, fixed_name_size. rewrite app_length, repeat_length. lia. Qed.

Lemma read_name n : name_ok n -> trim (c_str (padded n)) = n.
Proof.
  intros H. pose proof (name_chars _ H) as HC. rewrite c_str_id.
  2:{ unfold padded. apply Forall_app. split.
      - apply Forall_forall. intros x Hx. apply repeat_spec in Hx. lia.
      - eapply Forall_impl; [|exact HC]. unfold letter, digit. cbn. intros; lia. }
  unfold padded. unfold trim. rewrite drop_pad. rewrite (drop_space_id n).
  2:{ destruct n; auto. inversion HC; subst. now apply char_not_space. }
  rewrite drop_space_id; [apply rev_involutive|].
  apply Forall_rev in HC. destruct (rev n); auto. inversion HC; subst. now apply char_not_space.
Qed.

(** Encoding of one entry. *)
Definition encode (b : block) : list Z :=
  match b with
  | BMatrix n m => magic_matrix :: padded n ++ write_matrix n m
  | BString n v => magic_string :: padded n ++ write_string n v
  end.
Definition block_ok (b : block) : Prop :=
  match b with
  | BMatrix n m => name_ok n /\ matrix_ok m
  | BString n v => name_ok n /\ string_ok v
  end.

Lemma write_matrix_ok n m : matrix_ok m -> write_matrix n m =
  bytes_of 4 (rows m) ++ bytes_of 4 (cols m) ++ flat_map (bytes_of 8) (cells m) ++ [magic_end].
Proof.
  intros (Hr & Hc & Hs & Hl & _). unfold write_matrix.
  assert (0 <= rows m * cols m) by nia.
  rewrite (u32_id (rows m)), (u32_id (cols m)), (u32_id (rows m * cols m)), u64_id, u32_id by lia.
  rewrite firstn_all2; [reflexivity|]. rewrite flat_bytes_length. lia.
Qed.

Lemma read_write_matrix n m rest : matrix_ok m ->
  read_matrix (write_matrix n m ++ rest) = Ok (m, magic_end :: rest).
Proof.
  intros H. rewrite write_matrix_ok by exact H. destruct H as (Hr & Hc & Hs & Hl & Hcells).
  assert (0 <= rows m * cols m) by nia.
  unfold read_matrix. rewrite <- !app_assoc.
  rewrite read_app by (now rewrite bytes_of_length). cbn [obind].
  rewrite read_app by (now rewrite bytes_of_length). cbn [obind].
  rewrite !value_bytes by (cbn; lia). rewrite u32_id by lia.
  rewrite read_app by (rewrite flat_bytes_length; lia). cbn [obind].
  rewrite Z.eqb_refl. replace (Z.to_nat (rows m * cols m)) with (length (cells m)) by lia.
  rewrite cells_bytes by exact Hcells. destruct m; reflexivity.
Qed.

Lemma read_write_string n v rest : string_ok v ->
  read_string (write_string n v ++ rest) = Ok (v, magic_end :: rest).
Proof.
  unfold string_ok. intros H. unfold read_string, write_string. rewrite (u32_id (Z.of_nat (length v))) by lia.
  rewrite <- !app_assoc. rewrite read_app by (now rewrite bytes_of_length). cbn [obind].
  rewrite value_bytes by (cbn; lia). rewrite firstn_all2 by lia. now rewrite read_app.
Qed.

Lemma read_encode b rest : block_ok b -> read_block (encode b ++ rest) = Ok (b, rest).
Proof.
  intros H.
  destruct b as [n m|n v]; destruct H as [Hn Hv]; cbn [encode app]; rewrite <- app_assoc; unfold read_block;
    match goal with |- context[read 1 (?x :: ?l)] => change (x :: l) with ([x] ++ l) end;
    rewrite read_app by reflexivity; cbn [obind];
    rewrite read_app by (now apply padded_length); cbn [obind]; rewrite read_name by exact Hn.
  - replace (value_of [magic_matrix] =? magic_string) with false by reflexivity.
    replace (value_of [magic_matrix] =? magic_matrix) with true by reflexivity. cbn [orb].
    rewrite read_write_matrix by exact Hv. cbn [obind].
    change (magic_end :: rest) with ([magic_end] ++ rest). rewrite read_app by reflexivity. reflexivity.
  - replace (value_of [magic_string] =? magic_string) with true by reflexivity. cbn [orb].
    rewrite read_write_string by exact Hv. cbn [obind].
    change (magic_end :: rest) with ([magic_end] ++ rest). rewrite read_app by reflexivity. reflexivity.
Qed.

(** The result of reading a block from a truncated stream. *)
Definition more {A} (f : list Z -> outcome (A * list Z)) : Prop := forall p g,
  match f p with
  | Ok (x, r) => f (p ++ g) = Ok (x, r ++ g)
  | Throw => f (p ++ g) = Throw
  | UB => True
  | Hang => False
  end.

Lemma more_read k : more (read k).
Proof. intros p g. pose proof (read_more k p g). destruct (read k p) as [[x r]| | |]; auto; contradiction. Qed.
Lemma more_bind {A B} (f : list Z -> outcome (A * list Z)) (k : A -> list Z -> outcome (B * list Z)) :
  more f -> (forall x, more (k x)) -> more (fun p => do '(x, r) <- f p; k x r).
Proof.
  intros Hf Hk p g. specialize (Hf p g). destruct (f p) as [[x r]| | |]; cbn [obind]; auto.
  - rewrite Hf. cbn [obind]. apply Hk.
  - now rewrite Hf.
Qed.
Lemma more_ok {A} (x : A) : more (fun p => Ok (x, p)).
Proof. intros p g. reflexivity. Qed.
Lemma more_throw {A} : more (fun p => @Throw (A * list Z)).
Proof. intros p g. reflexivity. Qed.
Lemma more_ub {A} : more (fun p => @UB (A * list Z)).
Proof. intros p g. exact Logic.I. Qed.
Lemma more_if {A} (c : bool) (f g : list Z -> outcome (A * list Z)) :
  more f -> more g -> more (fun p => if c then f p else g p).
Proof. destruct c; auto. Qed.

Lemma more_block : more read_block.
Proof.
  unfold read_block.
  apply (more_bind (read 1)); [apply more_read|]. intros start.
  apply more_if; [|apply more_throw].
  apply (more_bind (read fixed_name_size)); [apply more_read|]. intros bn.
  apply (more_bind (fun f2 => if value_of start =? magic_string
                    then do '(v, g) <- read_string f2; Ok (BString (trim (c_str bn)) v, g)
                    else do '(m, g) <- read_matrix f2; Ok (BMatrix (trim (c_str bn)) m, g))).
  - apply more_if.
    + apply (more_bind read_string); [|intros; apply more_ok].
      unfold read_string. apply (more_bind (read 4)); [apply more_read|]. intros; apply more_read.
    + apply (more_bind read_matrix); [|intros; apply more_ok].
      unfold read_matrix. apply (more_bind (read 4)); [apply more_read|]. intros br.
      apply (more_bind (read 4)); [apply more_read|]. intros bc.
      apply (more_bind (read (cast_u32 (value_of br * value_of bc) * 8))); [apply more_read|]. intros d.
      apply more_if; [apply more_ok|apply more_ub].
  - intros b. apply (more_bind (read 1)); [apply more_read|]. intros e.
    apply more_if; [apply more_ok|apply more_throw].
Qed.

(** * Saving *)
Lemma selected_spec names n : selected names n = true <-> wanted names n.
Proof.
  unfold wanted, selected. destruct names as [|x r]; [intuition|].
  rewrite existsb_exists. split.
  - intros (y & Hy & E). right. destruct (lex n y) eqn:C; try discriminate.
    apply (cmp_eq _ lex_order) in C. now subst.
  - intros [H|H]; [discriminate|]. exists n. split; auto. now rewrite (cmp_refl lex lex_order).
Qed.

Definition want (names : list str) (b : block) : bool := selected names (named b).

Lemma save_loop_ok {V} mg (body : str -> V -> list Z) names (mk : str -> V -> block) l :
  (forall n v, named (mk n v) = n) -> (forall n v, encode (mk n v) = mg :: padded n ++ body n v) ->
  (forall n v, In (n, v) l -> name_ok n) ->
  save_loop mg body names l =
    (flat_map encode (filter (want names) (map (fun e => mk (fst e) (snd e)) l)), true).
Proof.
  intros Hn He. induction l as [|[n v] l IH]; intros H; [reflexivity|].
  cbn [save_loop map filter fst snd]. unfold want at 1. rewrite Hn.
  rewrite IH by (intros; eapply H; right; eassumption).
  destruct (selected names n); [|reflexivity].
  unfold write_block. rewrite (proj2 (valid_name_spec n)) by (eapply H; left; reflexivity).
  cbn [flat_map]. rewrite He. reflexivity.
Qed.

Lemma save_ok names a : saveable a -> save names a = (flat_map encode (filter (want names) (entries a)), true).
Proof.
  intros [H1 H2]. unfold save, entries.
  rewrite (save_loop_ok _ _ _ BMatrix) by (auto; intros; now apply (H1 _ v)).
  rewrite (save_loop_ok _ _ _ BString) by (auto; intros; now apply (H2 _ v)).
  now rewrite filter_app, flat_map_app.
Qed.

Lemma entries_ok a : saveable a -> Forall block_ok (entries a).
Proof.
  intros [H1 H2]. unfold entries. apply Forall_app. split; apply Forall_map, Forall_forall; intros [n v] Hin; cbn; auto.
Qed.

(** * Loading *)
Definition put_block (names : list str) (a : archive) (b : block) : archive :=
  if want names b then
    match b with
    | BMatrix n m => Arch (mput lex n m (values a)) (strings a)
    | BString n v => Arch (values a) (mput lex n v (strings a))
    end
  else a.

Lemma store_ok names b a : block_ok b -> store names b a = (put_block names a b, true).
Proof.
  unfold store, put_block, want. intros H.
  assert (Hn : valid_name (named b) = true) by (apply valid_name_spec; destruct b; apply H).
  destruct b; cbn [named] in *; rewrite Hn; destruct (selected names n); reflexivity.
Qed.

Lemma encode_nonempty b : encode b <> [].
Proof. destruct b; discriminate. Qed.

(** Loading any initial part of a file made of good blocks stores the blocks that are
    completely inside it; the call returns only if it ends at a block boundary. *)
Lemma load_prefix names bs : Forall block_ok bs -> forall fuel p q a, (length p <= fuel)%nat ->
  p ++ q = flat_map encode bs ->
  exists k e, load_loop fuel names p a = (fold_left (put_block names) (firstn k bs) a, e) /\
    (e = Returned /\ p = flat_map encode (firstn k bs) \/
     e = Undefined /\ exists p', p = flat_map encode (firstn k bs) ++ p' /\ p' <> []).
Proof.
  induction 1 as [|b bs Hb H IH]; intros fuel p q a Hf E.
  - apply app_eq_nil in E. destruct E as [-> ->]. exists 0%nat, Returned. destruct fuel; cbn; auto.
  - destruct p as [|x p].
    { exists 0%nat, Returned. destruct fuel; cbn; auto. }
    destruct fuel as [|fuel]; [cbn in Hf; lia|].
    cbn [load_loop]. cbn [flat_map] in E.
    pose proof (more_block (x :: p) q) as M. rewrite E, read_encode in M by exact Hb.
    destruct (read_block (x :: p)) as [[b' r]| | |] eqn:R; try discriminate; try contradiction.
    + injection M as <- Er. rewrite store_ok by exact Hb.
      assert (Ep : x :: p = encode b ++ r).
      { rewrite Er, app_assoc in E. now apply app_inv_tail in E. }
      destruct (IH fuel r q (put_block names a b)) as (k & e & E1 & E2).
      { apply (f_equal (@length _)) in Ep. rewrite app_length in Ep.
        pose proof (encode_nonempty b). destruct (encode b); [congruence|]. cbn [length] in *. lia. }
      { auto. }
      exists (S k), e. cbn [firstn fold_left flat_map]. split; [exact E1|].
      destruct E2 as [[-> ->] | [-> (p' & -> & Hp)]].
      * left. auto.
      * right. split; auto. exists p'. split; auto. rewrite <- app_assoc. exact Ep.
    + exists 0%nat, Undefined. cbn. split; [reflexivity|]. right. split; auto. exists (x :: p). split; [reflexivity|discriminate].
Qed.

Lemma load_all names bs a : Forall block_ok bs ->
  load names (flat_map encode bs) a = (fold_left (put_block names) bs a, Returned).
Proof.
  intros H0. assert (G : forall bs, Forall block_ok bs -> forall fuel a, (length (flat_map encode bs) <= fuel)%nat ->
    load_loop fuel names (flat_map encode bs) a = (fold_left (put_block names) bs a, Returned)).
  2:{ apply G; auto. }
  clear. induction 1 as [|b bs Hb H IH]; intros fuel a Hf; [destruct fuel; reflexivity|].
  cbn [flat_map fold_left] in *. pose proof (encode_nonempty b) as N.
  destruct fuel as [|fuel]; [destruct (encode b); [congruence|cbn in Hf; lia]|].
  assert (R := read_encode b (flat_map encode bs) Hb).
  destruct (encode b ++ flat_map encode bs) eqn:Ee; [destruct (encode b); [congruence|discriminate]|].
  cbn [load_loop]. rewrite R, store_ok by exact Hb. apply IH.
  apply (f_equal (@length _)) in Ee. rewrite app_length in Ee.
  destruct (encode b); [congruence|]. cbn [length] in *. lia.
Qed.

(** Bad blocks. *)
Lemma load_bad names bs bad a : Forall block_ok bs -> bad <> [] -> read_block bad = Throw ->
  load names (flat_map encode bs ++ bad) a = (fold_left (put_block names) bs a, Threw).
Proof.
  intros H N R. unfold load.
  assert (X : forall fuel a, (length (flat_map encode bs ++ bad) <= fuel)%nat ->
     load_loop fuel names (flat_map encode bs ++ bad) a = (fold_left (put_block names) bs a, Threw)); [|apply X; lia].
  clear a. induction H as [|b bs Hb H IH]; intros fuel a Hf.
  - cbn [flat_map app fold_left] in *. destruct bad as [|z bad]; [congruence|]. destruct fuel; [cbn in Hf; lia|].
    cbn [load_loop]. now rewrite R.
  - cbn [flat_map fold_left] in *. rewrite <- app_assoc in *. pose proof (encode_nonempty b) as Nb.
    destruct fuel as [|fuel]; [destruct (encode b); [congruence|cbn in Hf; lia]|].
    pose proof (read_encode b (flat_map encode bs ++ bad) Hb) as Rb.
    destruct (encode b ++ flat_map encode bs ++ bad) eqn:Ee; [destruct (encode b); [congruence|discriminate]|].
    cbn [load_loop]. rewrite Rb, store_ok by exact Hb. apply IH.
    apply (f_equal (@length _)) in Ee. rewrite app_length in Ee.
    destruct (encode b); [congruence|]. cbn [length] in *. lia.
Qed.

Lemma bad_start x junk : x <> magic_matrix -> x <> magic_string -> read_block (x :: junk) = Throw.
Proof.
  intros N1 N2. unfold read_block. change (x :: junk) with ([x] ++ junk). rewrite read_app by reflexivity.
  cbn [obind value_of]. replace (x + 256 * 0) with x by lia.
  apply Z.eqb_neq in N1. apply Z.eqb_neq in N2. now rewrite N1, N2.
Qed.

Lemma encode_end b : block_ok b -> exists x, encode b = x ++ [magic_end] /\
  forall e rest, e <> magic_end -> read_block (x ++ e :: rest) = Throw.
Proof.
  intros H. destruct b as [n m|n v]; destruct H as [Hn Hv]; cbn [encode].
  - exists (magic_matrix :: padded n ++ bytes_of 4 (rows m) ++ bytes_of 4 (cols m) ++ flat_map (bytes_of 8) (cells m)).
    rewrite write_matrix_ok by exact Hv. split; [cbn [app]; now rewrite <- !app_assoc|]. intros e rest N.
    destruct Hv as (Hr & Hc & Hs & Hl & Hcells). assert (0 <= rows m * cols m) by nia.
    cbn [app]. rewrite <- !app_assoc. unfold read_block.
    match goal with |- context[read 1 (?x :: ?l)] => change (x :: l) with ([x] ++ l) end.
    rewrite read_app by reflexivity. cbn [obind]. rewrite read_app by (now apply padded_length). cbn [obind].
    replace (value_of [magic_matrix] =? magic_string) with false by reflexivity.
    replace (value_of [magic_matrix] =? magic_matrix) with true by reflexivity. cbn [orb]. unfold read_matrix.
    rewrite read_app by (now rewrite bytes_of_length). cbn [obind].
    rewrite read_app by (now rewrite bytes_of_length). cbn [obind].
    rewrite !value_bytes by (cbn; lia). rewrite u32_id by lia.
    rewrite read_app by (rewrite flat_bytes_length; lia). cbn [obind]. rewrite Z.eqb_refl. cbn [obind].
    change (e :: rest) with ([e] ++ rest). rewrite read_app by reflexivity. cbn [obind value_of].
    replace (e + 256 * 0) with e by lia. apply Z.eqb_neq in N. now rewrite N.
  - exists (magic_string :: padded n ++ bytes_of 4 (Z.of_nat (length v)) ++ v).
    unfold string_ok in Hv. unfold write_string. rewrite u32_id by lia. rewrite firstn_all2 by lia.
    split; [cbn [app]; now rewrite <- !app_assoc|]. intros e rest N.
    cbn [app]. rewrite <- !app_assoc. unfold read_block.
    match goal with |- context[read 1 (?x :: ?l)] => change (x :: l) with ([x] ++ l) end.
    rewrite read_app by reflexivity. cbn [obind]. rewrite read_app by (now apply padded_length). cbn [obind].
    replace (value_of [magic_string] =? magic_string) with true by reflexivity. cbn [orb]. unfold read_string.
    rewrite read_app by (now rewrite bytes_of_length). cbn [obind].
    rewrite value_bytes by (cbn; lia). rewrite read_app by reflexivity. cbn [obind].
    change (e :: rest) with ([e] ++ rest). rewrite read_app by reflexivity. cbn [obind value_of].
    replace (e + 256 * 0) with e by lia. apply Z.eqb_neq in N. now rewrite N.
Qed.

(** * Maps *)
Definition sane (a : archive) : Prop := sorted lex (values a) /\ sorted lex (strings a).

Lemma put_block_sane names a b : sane a -> sane (put_block names a b).
Proof.
  unfold put_block, sane. intros [H1 H2]. destruct (want names b); auto.
  destruct b; cbn; split; auto; apply mput_sorted; auto using lex_order.
Qed.

Lemma fold_put_sane names bs a : sane a -> sane (fold_left (put_block names) bs a).
Proof. revert a. induction bs as [|b bs IH]; cbn; auto. intros. apply IH. now apply put_block_sane. Qed.

Lemma load_sane fuel names f a : sane a -> sane (fst (load_loop fuel names f a)).
Proof.
  revert f a. induction fuel as [|fuel IH]; intros f a H; destruct f as [|x f]; cbn [load_loop]; auto.
  destruct (read_block (x :: f)) as [[b f']| | |]; auto.
  unfold store. set (n := match b with BMatrix n _ => n | BString n _ => n end).
  destruct (selected names n); [|apply IH; auto]. destruct (valid_name n); [|auto].
  apply IH. destruct H. destruct b; split; cbn; auto; apply mput_sorted; auto using lex_order.
Qed.

Lemma apply_sane o a : sane a -> sane (fst (apply o a)).
Proof.
  intros H. pose proof H as [H1 H2]. destruct o as [|n|n x|n v|n m|n m|n r c w fl|names f]; cbn [apply].
  - split; exact Logic.I.
  - split; cbn; auto using mdel_sorted, lex_order.
  - unfold set_scalar. destruct (valid_name n); cbn; auto. split; cbn; auto using mput_sorted, lex_order.
  - unfold set_string. destruct (valid_name n); cbn; auto. split; cbn; auto using mput_sorted, mdel_sorted, lex_order.
  - unfold set_matrix. destruct (valid_name n); cbn; split; cbn; auto using mput_sorted, mdel_sorted, lex_order.
  - unfold set_vector. destruct (cols m =? 1); auto. destruct (valid_name n); cbn; auto. split; cbn; auto using mput_sorted, lex_order.
  - unfold create_matrix. destruct (negb w && mhas lex n (values a)); cbn; auto. split; cbn; auto using mput_sorted, lex_order.
  - pose proof (load_sane (length f) names f a H) as L. unfold load. destruct (load_loop (length f) names f a); exact L.
Qed.

Lemma run_app h o : run (h ++ [o]) = fst (apply o (run h)).
Proof. unfold run. now rewrite fold_left_app. Qed.

Lemma run_sane h : sane (run h).
Proof.
  induction h as [|o h IH] using rev_ind; [split; exact Logic.I|].
  rewrite run_app. now apply apply_sane.
Qed.

(** Contents after storing blocks. *)
Lemma get_matrix_spec n a m : sane a -> (get_matrix n a = Ok m <-> In (n, m) (values a)).
Proof.
  intros [H _]. rewrite <- (mget_in lex lex_order) by exact H. unfold get_matrix.
  destruct (mget lex n (values a)); split; congruence.
Qed.
Lemma get_string_spec n a v : sane a -> (get_string n a = Ok v <-> In (n, v) (strings a)).
Proof.
  intros [_ H]. rewrite <- (mget_in lex lex_order) by exact H. unfold get_string.
  destruct (mget lex n (strings a)); split; congruence.
Qed.

Lemma in_entries_matrix a n m : In (BMatrix n m) (entries a) <-> In (n, m) (values a).
Proof.
  unfold entries. rewrite in_app_iff, !in_map_iff. split.
  - intros [([n' m'] & [= -> ->] & H) | ([n' m'] & [=] & H)]; exact H.
  - intros H. left. exists (n, m). auto.
Qed.
Lemma in_entries_string a n v : In (BString n v) (entries a) <-> In (n, v) (strings a).
Proof.
  unfold entries. rewrite in_app_iff, !in_map_iff. split.
  - intros [([n' m'] & [=] & H) | ([n' m'] & [= -> ->] & H)]; exact H.
  - intros H. right. exists (n, v). auto.
Qed.

Lemma holds_entries a : sane a -> holds_exactly a (entries a).
Proof.
  intros H. split; intros.
  - now rewrite get_matrix_spec, in_entries_matrix.
  - now rewrite get_string_spec, in_entries_string.
Qed.

(** No two entries of the same kind have the same name. *)
Definition distinct (l : list block) : Prop :=
  (forall n m m', In (BMatrix n m) l -> In (BMatrix n m') l -> m = m') /\
  (forall n v v', In (BString n v) l -> In (BString n v') l -> v = v').

Lemma distinct_entries a : sane a -> distinct (entries a).
Proof.
  intros [H1 H2]. split; intros n x y.
  - rewrite !in_entries_matrix, <- !(mget_in lex lex_order) by exact H1. congruence.
  - rewrite !in_entries_string, <- !(mget_in lex lex_order) by exact H2. congruence.
Qed.

Lemma distinct_sub l l' : (forall x, In x l -> In x l') -> distinct l' -> distinct l.
Proof. intros H [D1 D2]. split; intros; eauto. Qed.

(** What the archive contains after storing [bs] into it. *)
Lemma get_fold_matrix names bs : distinct bs -> forall a n,
  mget lex n (values (fold_left (put_block names) bs a)) =
  if selected names n then
    match find (fun b => match b with BMatrix n' _ => is n n' | _ => false end) bs with
    | Some (BMatrix _ m) => Some m
    | _ => mget lex n (values a)
    end
  else mget lex n (values a).
Proof.
  induction bs as [|b bs IH]; intros D a n; cbn [fold_left find].
  { destruct (selected names n); reflexivity. }
  assert (D' : distinct bs) by (eapply distinct_sub; [|exact D]; cbn; auto).
  rewrite IH by exact D'. unfold put_block, want.
  destruct b as [n' m|n' v]; cbn [named].
  2:{ destruct (selected names n'); reflexivity. }
  destruct (selected names n) eqn:Es.
  2:{ destruct (selected names n') eqn:Es'; [|reflexivity]. cbn.
      apply mget_put_other; [apply lex_order|]. congruence. }
  unfold is at 2. destruct (str_eq_dec n n') as [<- |N].
  - rewrite Es. cbn. rewrite mget_put_same by apply lex_order.
    destruct (find _ bs) as [[n'' m'|]|] eqn:F; auto. apply find_some in F.
    destruct F as [F1 F2]. unfold is in F2. destruct (str_eq_dec n n'') as [<- |]; [|discriminate].
    f_equal. destruct D as [D _]. apply (D n); cbn; auto.
  - destruct (find _ bs) as [[n'' m'|]|]; auto; destruct (selected names n'); auto; cbn;
      apply mget_put_other; auto using lex_order.
Qed.

Lemma get_fold_string names bs : distinct bs -> forall a n,
  mget lex n (strings (fold_left (put_block names) bs a)) =
  if selected names n then
    match find (fun b => match b with BString n' _ => is n n' | _ => false end) bs with
    | Some (BString _ m) => Some m
    | _ => mget lex n (strings a)
    end
  else mget lex n (strings a).
Proof.
  induction bs as [|b bs IH]; intros D a n; cbn [fold_left find].
  { destruct (selected names n); reflexivity. }
  assert (D' : distinct bs) by (eapply distinct_sub; [|exact D]; cbn; auto).
  rewrite IH by exact D'. unfold put_block, want.
  destruct b as [n' v|n' m]; cbn [named].
  { destruct (selected names n'); reflexivity. }
  destruct (selected names n) eqn:Es.
  2:{ destruct (selected names n') eqn:Es'; [|reflexivity]. cbn.
      apply mget_put_other; [apply lex_order|]. congruence. }
  unfold is at 2. destruct (str_eq_dec n n') as [<- |N].
  - rewrite Es. cbn. rewrite mget_put_same by apply lex_order.
    destruct (find _ bs) as [[|n'' m']|] eqn:F; auto. apply find_some in F.
    destruct F as [F1 F2]. unfold is in F2. destruct (str_eq_dec n n'') as [<- |]; [|discriminate].
    f_equal. destruct D as [_ D]. apply (D n); cbn; auto.
  - destruct (find _ bs) as [[|n'' m']|]; auto; destruct (selected names n'); auto; cbn;
      apply mget_put_other; auto using lex_order.
Qed.

Lemma find_matrix n bs m : distinct bs ->
  (exists n', find (fun b => match b with BMatrix n' _ => is n n' | _ => false end) bs = Some (BMatrix n' m)) <->
  In (BMatrix n m) bs.
Proof.
  intros [D _]. split.
  - intros (n' & F). apply find_some in F. destruct F as [F1 F2]. unfold is in F2.
    destruct (str_eq_dec n n'); [congruence|discriminate].
  - intros H. destruct (find _ bs) as [[n' m'|n' v]|] eqn:F.
    + exists n'. apply find_some in F. destruct F as [F1 F2]. unfold is in F2.
      destruct (str_eq_dec n n'); [subst n'|discriminate]. now rewrite (D n m m').
    + apply find_some in F. now destruct F.
    + eapply find_none in F; [|exact H]. cbn in F. unfold is in F. destruct (str_eq_dec n n); congruence.
Qed.
Lemma find_string n bs m : distinct bs ->
  (exists n', find (fun b => match b with BString n' _ => is n n' | _ => false end) bs = Some (BString n' m)) <->
  In (BString n m) bs.
Proof.
  intros [_ D]. split.
  - intros (n' & F). apply find_some in F. destruct F as [F1 F2]. unfold is in F2.
    destruct (str_eq_dec n n'); [congruence|discriminate].
  - intros H. destruct (find _ bs) as [[n' v|n' m']|] eqn:F.
    + apply find_some in F. now destruct F.
    + exists n'. apply find_some in F. destruct F as [F1 F2]. unfold is in F2.
      destruct (str_eq_dec n n'); [subst n'|discriminate]. now rewrite (D n m m').
    + eapply find_none in F; [|exact H]. cbn in F. unfold is in F. destruct (str_eq_dec n n); congruence.
Qed.

(** Loading distinct blocks: a name means what the file says, or else what it meant. *)
Lemma merged_matrix names bs a n : distinct bs -> 
  (forall m, wanted names n -> In (BMatrix n m) bs -> get_matrix n (fold_left (put_block names) bs a) = Ok m) /\
  ((wanted names n -> forall m, ~ In (BMatrix n m) bs) -> get_matrix n (fold_left (put_block names) bs a) = get_matrix n a).
Proof.
  intros D. unfold get_matrix. rewrite get_fold_matrix by exact D. split.
  - intros m W H. apply selected_spec in W. rewrite W. apply find_matrix in H; auto. destruct H as (n' & ->). reflexivity.
  - intros H. destruct (selected names n) eqn:E; [|reflexivity]. apply selected_spec in E. specialize (H E).
    destruct (find _ bs) as [[n' m|]|] eqn:F; auto.
    exfalso. apply (H m). apply find_matrix; auto. exists n'. exact F.
Qed.
Lemma merged_string names bs a n : distinct bs -> 
  (forall m, wanted names n -> In (BString n m) bs -> get_string n (fold_left (put_block names) bs a) = Ok m) /\
  ((wanted names n -> forall m, ~ In (BString n m) bs) -> get_string n (fold_left (put_block names) bs a) = get_string n a).
Proof.
  intros D. unfold get_string. rewrite get_fold_string by exact D. split.
  - intros m W H. apply selected_spec in W. rewrite W. apply find_string in H; auto. destruct H as (n' & ->). reflexivity.
  - intros H. destruct (selected names n) eqn:E; [|reflexivity]. apply selected_spec in E. specialize (H E).
    destruct (find _ bs) as [[|n' m]|] eqn:F; auto.
    exfalso. apply (H m). apply find_string; auto. exists n'. exact F.
Qed.

Lemma holds_fold bs : distinct bs -> holds_exactly (fold_left (put_block []) bs empty) bs.
Proof.
  intros D. split; intros n x; split.
  - intros G. destruct (find (fun b => match b with BMatrix n' _ => is n n' | _ => false end) bs) as [[n' m|n' v]|] eqn:F.
    + assert (H : In (BMatrix n m) bs) by (apply find_matrix; eauto).
      destruct (merged_matrix [] bs empty n D) as [M _]. specialize (M m (or_introl eq_refl) H). congruence.
    + apply find_some in F. now destruct F.
    + destruct (merged_matrix [] bs empty n D) as [_ M]. rewrite M in G; [discriminate|].
      intros _ m H. eapply find_none in F; [|exact H]. cbn in F. unfold is in F. destruct (str_eq_dec n n); congruence.
  - intros H. apply (merged_matrix [] bs empty n D); auto. left. reflexivity.
  - intros G. destruct (find (fun b => match b with BString n' _ => is n n' | _ => false end) bs) as [[n' m|n' v]|] eqn:F.
    + apply find_some in F. now destruct F.
    + assert (H : In (BString n v) bs) by (apply find_string; eauto).
      destruct (merged_string [] bs empty n D) as [M _]. specialize (M v (or_introl eq_refl) H). congruence.
    + destruct (merged_string [] bs empty n D) as [_ M]. rewrite M in G; [discriminate|].
      intros _ m H. eapply find_none in F; [|exact H]. cbn in F. unfold is in F. destruct (str_eq_dec n n); congruence.
  - intros H. apply (merged_string [] bs empty n D); auto. left. reflexivity.
Qed.

(** Two archives with the same contents are equal. *)
Lemma same_contents a b l : sane a -> sane b -> holds_exactly a l -> holds_exactly b l -> a = b.
Proof.
  intros [A1 A2] [B1 B2] [Ma Sa] [Mb Sb]. destruct a as [va sa], b as [vb sb]. cbn in *. f_equal.
  - apply (mext lex lex_order); auto. intros k. unfold get_matrix in *. cbn in *.
    specialize (Ma k). specialize (Mb k).
    destruct (mget lex k va) as [x|]; destruct (mget lex k vb) as [y|]; auto.
    + f_equal. assert (Ok y = Ok x) by (apply Mb, Ma; reflexivity). congruence.
    + assert (X : Throw = Ok x) by (apply Mb, Ma; reflexivity). discriminate X.
    + assert (X : Throw = Ok y) by (apply Ma, Mb; reflexivity). discriminate X.
  - apply (mext lex lex_order); auto. intros k. unfold get_string in *. cbn in *.
    specialize (Sa k). specialize (Sb k).
    destruct (mget lex k sa) as [x|]; destruct (mget lex k sb) as [y|]; auto.
    + f_equal. assert (Ok y = Ok x) by (apply Sb, Sa; reflexivity). congruence.
    + assert (X : Throw = Ok x) by (apply Sb, Sa; reflexivity). discriminate X.
    + assert (X : Throw = Ok y) by (apply Sa, Sb; reflexivity). discriminate X.
Qed.

Lemma filter_all l : filter (want []) l = l.
Proof. induction l as [|b l IH]; cbn; auto. now rewrite IH. Qed.

Lemma round_trip a : sane a -> saveable a -> exists f, save [] a = (f, true) /\ load [] f empty = (a, Returned).
Proof.
  intros S V. rewrite save_ok by exact V. eexists. split; [reflexivity|].
  rewrite filter_all, load_all by (apply entries_ok, V). f_equal.
  apply (same_contents _ _ (entries a)); auto.
  - apply fold_put_sane. split; exact Logic.I.
  - apply holds_fold, distinct_entries, S.
  - apply holds_entries, S.
Qed.

(** * Histories *)
Lemma mget_mdel n n' {V} (m : list (str * V)) : sorted lex m ->
  mget lex n (mdel lex n' m) = if is n n' then None else mget lex n m.
Proof.
  intros S. unfold is. destruct (str_eq_dec n n') as [<- |N].
  - now apply mget_del_same; [apply lex_order|].
  - now apply mget_del_other; [apply lex_order| |].
Qed.
Lemma mget_mput n n' {V} (x : V) (m : list (str * V)) :
  mget lex n (mput lex n' x m) = if is n n' then Some x else mget lex n m.
Proof.
  unfold is. destruct (str_eq_dec n n') as [<- |N].
  - apply mget_put_same, lex_order.
  - apply mget_put_other; auto using lex_order.
Qed.
Lemma is_true n n' : is n n' = true -> n = n'.
Proof. unfold is. destruct (str_eq_dec n n'); congruence. Qed.

Lemma named_run h n : forallb no_load h = true ->
  mget lex n (values (run h)) = matrix_named (rev h) n /\ mget lex n (strings (run h)) = string_named (rev h) n.
Proof.
  induction h as [|o h IH] using rev_ind; [intros _; split; reflexivity|].
  rewrite forallb_app. intros Hl. apply andb_true_iff in Hl. destruct Hl as [Hl Ho].
  destruct (IH Hl) as [I1 I2]. rewrite run_app, rev_app_distr. cbn [rev app matrix_named string_named].
  rewrite <- I1, <- I2. destruct (run_sane h) as [S1 S2].
  destruct o as [|n'|n' x|n' v|n' m|n' m|n' r c w fl|names f]; cbn [apply]; try discriminate Ho.
  - split; reflexivity.
  - cbn. rewrite mget_mdel by (apply mdel_sorted; auto using lex_order).
    rewrite mget_mdel by exact S1. destruct (is n n'); auto.
  - unfold set_scalar. destruct (is n n') eqn:E; [apply is_true in E; subst n'|]; destruct (valid_name _) eqn:Ev; cbn;
      rewrite ?mget_mput, ?E; auto; unfold is; destruct (str_eq_dec n n); auto; congruence.
  - unfold set_string. destruct (is n n') eqn:E; [pose proof (is_true _ _ E); subst n'|]; destruct (valid_name _) eqn:Ev; cbn;
      rewrite ?mget_mput, ?mget_mdel, ?E by auto; auto.
  - unfold set_matrix. destruct (is n n') eqn:E; [pose proof (is_true _ _ E); subst n'|]; destruct (valid_name _) eqn:Ev; cbn;
      rewrite ?mget_mput, ?mget_mdel, ?E by auto; auto.
  - unfold set_vector. destruct (is n n') eqn:E; [pose proof (is_true _ _ E); subst n'|]; destruct (valid_name _) eqn:Ev; destruct (cols m =? 1) eqn:Ec; cbn;
      rewrite ?mget_mput, ?mget_mdel, ?E by auto; auto.
  - unfold create_matrix, mhas. destruct (is n n') eqn:E; [pose proof (is_true _ _ E); subst n'|]; destruct w; cbn;
      [rewrite mget_mput, E; auto| |rewrite mget_mput, E; auto| ].
    + destruct (mget lex n (values (run h))) eqn:Eg; cbn; rewrite ?mget_mput, ?Eg, ?E; auto.
    + destruct (mget lex n' (values (run h))) eqn:Eg; cbn; rewrite ?mget_mput, ?E; auto.
Qed.

(** * Names in reachable archives *)
Definition names_valid (a : archive) : Prop :=
  (forall n m, In (n, m) (values a) -> name_ok n) /\ (forall n v, In (n, v) (strings a) -> name_ok n).

Definition creates_valid (o : op) : Prop := match o with OCreate n _ _ _ _ => name_ok n | _ => True end.

Lemma load_names fuel names f a : names_valid a -> names_valid (fst (load_loop fuel names f a)).
Proof.
  revert f a. induction fuel as [|fuel IH]; intros f a H; destruct f as [|x f]; cbn [load_loop]; auto.
  destruct (read_block (x :: f)) as [[b f']| | |]; auto.
  unfold store. set (n := match b with BMatrix n _ => n | BString n _ => n end).
  destruct (selected names n); [|apply IH; auto]. destruct (valid_name n) eqn:Ev; [|auto].
  apply valid_name_spec in Ev. apply IH. destruct H as [H1 H2]. destruct b; split; cbn; eauto; intros n1 v1 Hin;
   apply mput_in in Hin; destruct Hin as [[= -> ->] | Hin]; eauto.
Qed.

Lemma strings_valid_load fuel names f a : (forall n v, In (n, v) (strings a) -> name_ok n) ->
  forall n v, In (n, v) (strings (fst (load_loop fuel names f a))) -> name_ok n.
Proof.
  revert f a. induction fuel as [|fuel IH]; intros f a H; destruct f as [|x f]; cbn [load_loop]; auto.
  destruct (read_block (x :: f)) as [[b f']| | |]; auto.
  unfold store. set (n := match b with BMatrix n _ => n | BString n _ => n end).
  destruct (selected names n); [|apply IH; auto]. destruct (valid_name n) eqn:Ev; [|auto].
  apply valid_name_spec in Ev. apply IH. destruct b; cbn; eauto; intros n1 v1 Hin;
   apply mput_in in Hin; destruct Hin as [[= -> ->] | Hin]; eauto.
Qed.

Lemma apply_strings_valid o a : (forall n v, In (n, v) (strings a) -> name_ok n) ->
  forall n v, In (n, v) (strings (fst (apply o a))) -> name_ok n.
Proof.
  intros H. destruct o as [|n'|n' x|n' v'|n' m|n' m|n' r c w fl|names f]; cbn [apply]; auto.
  - intros n v [].
  - unfold set_scalar. destruct (valid_name n'); auto.
  - unfold set_string. destruct (valid_name n') eqn:E; auto. apply valid_name_spec in E. cbn.
    intros n v Hin. apply mput_in in Hin. destruct Hin as [[= -> ->] | Hin]; eauto.
  - unfold set_matrix. destruct (valid_name n'); cbn; intros n v Hin; apply mdel_in in Hin; eauto.
  - unfold set_vector. destruct (cols m =? 1); auto. destruct (valid_name n'); auto.
  - unfold create_matrix. destruct (negb w && mhas lex n' (values a)); auto.
  - pose proof (strings_valid_load (length f) names f a H) as L. unfold load.
    destruct (load_loop (length f) names f a); exact L.
Qed.

Lemma run_strings_valid h n v : In (n, v) (strings (run h)) -> name_ok n.
Proof.
  revert n v. induction h as [|o h IH] using rev_ind; [intros n v []|].
  rewrite run_app. now apply apply_strings_valid.
Qed.

Lemma apply_names o a : creates_valid o -> names_valid a -> names_valid (fst (apply o a)).
Proof.
  intros Hc H. pose proof H as [H1 H2]. split; [|apply apply_strings_valid; exact H2].
  destruct o as [|n'|n' x|n' v'|n' m'|n' m'|n' r c w fl|names f]; cbn [apply]; auto.
  - intros n v [].
  - cbn. intros n m Hin. do 2 apply mdel_in in Hin. eauto.
  - unfold set_scalar. destruct (valid_name n') eqn:E; auto. apply valid_name_spec in E. cbn.
    intros n v Hin. apply mput_in in Hin. destruct Hin as [[= -> ->] | Hin]; eauto.
  - unfold set_string. destruct (valid_name n') eqn:E; auto. cbn. intros n v Hin. apply mdel_in in Hin. eauto.
  - unfold set_matrix. destruct (valid_name n') eqn:E; cbn; eauto. apply valid_name_spec in E. cbn.
    intros n v Hin. apply mput_in in Hin. destruct Hin as [[= -> ->] | Hin]; eauto.
  - unfold set_vector. destruct (cols m' =? 1); auto. destruct (valid_name n') eqn:E; cbn; eauto. apply valid_name_spec in E. cbn.
    intros n v Hin. apply mput_in in Hin. destruct Hin as [[= -> ->] | Hin]; eauto.
  - unfold create_matrix. destruct (negb w && mhas lex n' (values a)); cbn; eauto.
    intros n v Hin. apply mput_in in Hin. destruct Hin as [[= -> ->] | Hin]; eauto.
  - pose proof (load_names (length f) names f a H) as [L _]. unfold load.
    destruct (load_loop (length f) names f a); exact L.
Qed.

Lemma run_names h : Forall creates_valid h -> names_valid (run h).
Proof.
  induction h as [|o h IH] using rev_ind; [intros _; split; intros n v []|].
  intros H. apply Forall_app in H. destruct H as [H Ho]. inversion Ho; subst.
  rewrite run_app. apply apply_names; auto.
Qed.

(** Deleting an absent key changes nothing. *)
Lemma mdel_absent {V} n (m : list (str * V)) : ~ In n (map fst m) -> mdel lex n m = m.
Proof.
  induction m as [|[k v] m IH]; cbn; auto. intros H.
  destruct (lex n k) eqn:E; auto; [apply (cmp_eq _ lex_order) in E; subst; tauto|]. rewrite IH; auto.
Qed.
