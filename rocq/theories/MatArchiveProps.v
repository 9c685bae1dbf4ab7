(** Properties of the matrix archive (C31, C32). *)
From Coq Require Import ZArith List Lia Bool.
From Verif Require Import Base OMap MatArchiveModel MatArchiveSpec MatArchiveProofs.
Import ListNotations.
Open Scope Z_scope.

(** * C31 *)

(** Whatever was done to an archive: if its names and sizes are representable, saving it
    succeeds and loading the file into an empty archive gives the same archive. *)
Theorem C31_round_trip : forall h, saveable (run h) ->
  exists f, save [] (run h) = (f, true) /\ load [] f empty = (run h, Returned).
Proof. intros h H. apply round_trip; [apply run_sane|exact H]. Qed.
Print Assumptions C31_round_trip.

Definition name_a : str := [97].
Definition name_b1 : str := [98; 95; 49].
Definition some_history : list op :=
  [OSetMatrix name_b1 (Mat 2 3 [1; 2; 3; 4; 5; 2 ^ 64 - 1]); OSetString name_a [72; 105; 0; 32]; OSetScalar name_a 7].
Lemma some_saveable : saveable (run some_history).
Proof.
  split; intros n v Hin; vm_compute in Hin; repeat (destruct Hin as [Hin|Hin]); try contradiction;
    injection Hin as <- <-; (split; [apply valid_name_spec; reflexivity|]); unfold matrix_ok, string_ok; cbn; 
    try lia; repeat (split; [lia|]); repeat constructor; try lia.
Qed.
Example C31_ex : saveable (run some_history) /\ length (entries (run some_history)) = 3%nat /\
  length (fst (save [] (run some_history))) = 182%nat.
Proof. split; [exact some_saveable|]. conj; vm_compute; reflexivity. Qed.

(** Saving a selection and loading a selection into any archive: selected names mean
    what the saved archive said, all other names keep their meaning. *)
Theorem C31_merge : forall h h' snames lnames, saveable (run h) ->
  exists f b, save snames (run h) = (f, true) /\ load lnames f (run h') = (b, Returned) /\
  forall n,
    (forall m, wanted snames n -> wanted lnames n -> get_matrix n (run h) = Ok m -> get_matrix n b = Ok m) /\
    ((wanted snames n -> wanted lnames n -> get_matrix n (run h) = Throw) -> get_matrix n b = get_matrix n (run h')) /\
    (forall v, wanted snames n -> wanted lnames n -> get_string n (run h) = Ok v -> get_string n b = Ok v) /\
    ((wanted snames n -> wanted lnames n -> get_string n (run h) = Throw) -> get_string n b = get_string n (run h')).
Proof.
  intros h h' sn ln V. pose proof (run_sane h) as S. pose proof (entries_ok _ V) as O.
  assert (O' : Forall block_ok (filter (want sn) (entries (run h)))).
  { rewrite Forall_forall in *. intros x Hx. apply filter_In in Hx. now apply O. }
  rewrite save_ok by exact V. do 2 eexists. split; [reflexivity|]. rewrite load_all by exact O'. split; [reflexivity|].
  assert (D : distinct (filter (want sn) (entries (run h)))).
  { eapply distinct_sub; [|apply distinct_entries, S]. intros x Hx. now apply filter_In in Hx. }
  intros n. destruct (merged_matrix ln _ (run h') n D) as [M1 M2]. destruct (merged_string ln _ (run h') n D) as [N1 N2].
  conj.
  - intros m Ws Wl G. apply M1; auto. apply filter_In. split.
    + now apply in_entries_matrix, get_matrix_spec.
    + now apply selected_spec.
  - intros G. apply M2. intros Wl m Hin. apply filter_In in Hin. destruct Hin as [Hin Ws].
    apply selected_spec in Ws. cbn in Ws. specialize (G Ws Wl).
    apply in_entries_matrix, get_matrix_spec in Hin; auto. congruence.
  - intros m Ws Wl G. apply N1; auto. apply filter_In. split.
    + now apply in_entries_string, get_string_spec.
    + now apply selected_spec.
  - intros G. apply N2. intros Wl m Hin. apply filter_In in Hin. destruct Hin as [Hin Ws].
    apply selected_spec in Ws. cbn in Ws. specialize (G Ws Wl).
    apply in_entries_string, get_string_spec in Hin; auto. congruence.
Qed.
Print Assumptions C31_merge.

(** A file cut anywhere (a crash while saving): loading what is there never throws.
    It returns only at an entry boundary, with exactly the complete entries; anywhere
    else it goes on to use bytes that were never read. *)
Theorem C31_truncated_file : forall h p q, saveable (run h) -> save [] (run h) = (p ++ q, true) ->
  exists k a e, load [] p empty = (a, e) /\ holds_exactly a (firstn k (entries (run h))) /\ e <> Threw /\
    (e = Returned -> exists f', save [] a = (f', true) /\ f' = p).
Proof.
  intros h p q V E. rewrite save_ok in E by exact V. injection E as E. rewrite filter_all in E.
  destruct (load_prefix [] (entries (run h)) (entries_ok _ V) (length p) p q empty) as (k & e & L & C); [lia|auto|].
  exists k. do 2 eexists. split; [exact L|].
  assert (D : distinct (firstn k (entries (run h)))).
  { eapply distinct_sub; [|apply distinct_entries, run_sane]. intros x Hx.
    rewrite <- (firstn_skipn k (entries (run h))). apply in_or_app. auto. }
  pose proof (holds_fold _ D) as Hh. split; [exact Hh|].
  split; [destruct C as [[-> _] | [-> _]]; discriminate|].
  intros ->. destruct C as [[_ C] | [C _]]; [|discriminate].
  (* the loaded archive is the one with the first k entries *)
  set (vs := firstn k (values (run h))).
  set (ss := firstn (k - length (values (run h))) (strings (run h))).
  assert (Ef : firstn k (entries (run h)) = entries (Arch vs ss)).
  { unfold entries. cbn. rewrite firstn_app, map_length, !firstn_map. reflexivity. }
  assert (Sa : forall {V} j (m : list (str * V)), sorted lex m -> sorted lex (firstn j m)).
  { clear. intros V j m. revert j. induction m as [|[x y] m IH]; intros [|j]; cbn; auto.
    intros [H1 H2]. split; [|auto]. destruct m as [|[x' y'] m]; destruct j; cbn; auto. }
  assert (Sn : sane (Arch vs ss)).
  { destruct (run_sane h). split; apply Sa; auto. }
  assert (Ea : fold_left (put_block []) (firstn k (entries (run h))) empty = Arch vs ss).
  { apply (same_contents _ _ (firstn k (entries (run h)))); auto.
    - apply fold_put_sane. split; exact Logic.I.
    - rewrite Ef. now apply holds_entries. }
  rewrite Ea. exists p. split; [|reflexivity].
  assert (Va : saveable (Arch vs ss)).
  { destruct V as [V1 V2]. split; cbn; intros n v Hin.
    - apply (V1 n v). rewrite <- (firstn_skipn k (values (run h))). apply in_or_app. auto.
    - apply (V2 n v). rewrite <- (firstn_skipn (k - length (values (run h))) (strings (run h))). apply in_or_app. auto. }
  rewrite save_ok by exact Va. rewrite filter_all, <- Ef, <- C. reflexivity.
Qed.
Print Assumptions C31_truncated_file.

Example C31_ex2 : exists p q, save [] (run some_history) = (p ++ q, true) /\ length p = 50%nat /\
  snd (load [] p empty) = Returned.
Proof.
  exists (firstn 50 (fst (save [] (run some_history)))), (skipn 50 (fst (save [] (run some_history)))).
  conj; vm_compute; reflexivity.
Qed.

(** A matrix of 2^29 doubles is written without its data, so it cannot be read back. *)
Theorem C31_large_matrix_refuted : exists m f, Z.of_nat (length (cells m)) = rows m * cols m /\
  save [] (run [OSetMatrix name_a m]) = (f, true) /\ length f = 42%nat /\
  load [] f empty = (empty, Undefined).
Proof.
  exists (Mat (2 ^ 29) 1 (repeat 0 (Z.to_nat (2 ^ 29)))). eexists. split.
  - cbn [cells rows cols]. rewrite repeat_length. rewrite Z2Nat.id by lia. reflexivity.
  - generalize (repeat 0 (Z.to_nat (2 ^ 29))). intros l. conj; try (vm_compute; reflexivity).
Qed.
Print Assumptions C31_large_matrix_refuted.

(** append() adds nothing to the file. *)
Theorem C31_append_refuted : exists h, saveable (run h) /\ get_scalar name_a (run h) = Ok 7 /\
  forall f, append [] (run h) f = f.
Proof.
  exists some_history. split; [exact some_saveable|]. split; [vm_compute; reflexivity|]. reflexivity.
Qed.
Print Assumptions C31_append_refuted.

(** * C32 *)

(** After any sequence of operations the queries answer with the last value written. *)
Theorem C32_last_write : forall h n, forallb no_load h = true ->
  get_matrix n (run h) = or_throw (matrix_named (rev h) n) /\
  get_string n (run h) = or_throw (string_named (rev h) n) /\
  get_vector n (run h) =
    match matrix_named (rev h) n with
    | Some m => if cols m =? 1 then Ok (cells m) else Throw | None => Throw end /\
  (forall x, matrix_named (rev h) n = Some (Mat 1 1 [x]) -> get_scalar n (run h) = Ok x).
Proof.
  intros h n H. destruct (named_run h n H) as [E1 E2].
  unfold get_matrix, get_string, get_vector, get_scalar. rewrite E1, E2. conj; auto.
  intros x ->. reflexivity.
Qed.
Print Assumptions C32_last_write.

Example C32_ex : get_matrix name_a (run some_history) = Ok (Mat 1 1 [7]) /\ get_scalar name_a (run some_history) = Ok 7.
Proof. conj; vm_compute; reflexivity. Qed.

(** A value is accepted exactly when its name is legal; otherwise nothing changes. *)
Theorem C32_names_checked : forall h n,
  (forall x, snd (apply (OSetScalar n x) (run h)) = true <-> name_ok n) /\
  (forall v, snd (apply (OSetString n v) (run h)) = true <-> name_ok n) /\
  (forall m, snd (apply (OSetMatrix n m) (run h)) = true <-> name_ok n) /\
  (forall m, snd (apply (OSetVector n m) (run h)) = true <-> name_ok n /\ cols m = 1) /\
  (forall o, no_load o = true -> snd (apply o (run h)) = false -> fst (apply o (run h)) = run h).
Proof.
  intros h n. pose proof (valid_name_spec n) as VN. cbn [apply]. unfold set_scalar, set_string, set_matrix, set_vector. conj.
  - intros x. rewrite <- VN. destruct (valid_name n); cbn; tauto.
  - intros x. rewrite <- VN. destruct (valid_name n); cbn; tauto.
  - intros x. rewrite <- VN. destruct (valid_name n); cbn; tauto.
  - intros m. rewrite <- VN. destruct (valid_name n), (Z.eqb_spec (cols m) 1); cbn; intuition discriminate.
  - intros o Ho. destruct o as [|k|k x|k v|k m|k m|k r c w fl|names f]; cbn [apply]; try discriminate; unfold set_scalar, set_string, set_matrix, set_vector, create_matrix.
    + destruct (valid_name k); auto; discriminate.
    + destruct (valid_name k); auto; discriminate.
    + destruct (valid_name k) eqn:E; [discriminate|]. intros _. cbn. rewrite mdel_absent; [destruct (run h); reflexivity|].
      intros Hin. apply in_map_iff in Hin. destruct Hin as ([k' v] & <- & Hin). cbn in E.
      apply run_strings_valid, valid_name_spec in Hin. congruence.
    + destruct (cols m =? 1), (valid_name k); auto; discriminate.
    + destruct (negb w && mhas lex k (values (run h))); auto; discriminate.
Qed.
Print Assumptions C32_names_checked.

(** If createMatrix is only given legal names, every name in the archive is legal. *)
Theorem C32_names_legal : forall h, Forall creates_valid h ->
  (forall n m, get_matrix n (run h) = Ok m -> name_ok n) /\ (forall n v, get_string n (run h) = Ok v -> name_ok n).
Proof.
  intros h H. destruct (run_names h H) as [H1 H2]. split; intros n v E.
  - apply get_matrix_spec in E; [eauto|apply run_sane].
  - apply get_string_spec in E; [eauto|apply run_sane].
Qed.
Print Assumptions C32_names_legal.

(** createMatrix takes any name, and then save() fails after writing part of the file. *)
Theorem C32_create_illegal_refuted : exists h n f, get_matrix n (run h) = Ok (Mat 1 1 [0]) /\ ~ name_ok n /\
  save [] (run h) = (f, false) /\ f <> [].
Proof.
  exists [OCreate [49] 1 1 false [0]], [49]. eexists. conj.
  - vm_compute. reflexivity.
  - intros H. apply valid_name_spec in H. discriminate H.
  - vm_compute. reflexivity.
  - discriminate.
Qed.
Print Assumptions C32_create_illegal_refuted.

(** A name may denote a string and a matrix at the same time. *)
Theorem C32_one_meaning_refuted : exists h n, get_string n (run h) = Ok [120] /\ get_scalar n (run h) = Ok 7.
Proof. exists [OSetString name_a [120]; OSetScalar name_a 7], name_a. conj; vm_compute; reflexivity. Qed.
Print Assumptions C32_one_meaning_refuted.

(** clear(name) does not clear a string. *)
Theorem C32_clear_name_refuted : exists h n, get_string n (fst (apply (OClearName n) (run h))) = Ok [120].
Proof. exists [OSetString name_a [120]], name_a. vm_compute. reflexivity. Qed.
Print Assumptions C32_clear_name_refuted.

(** sizeMatrices() and size() do not count matrices; sizeStrings() counts strings. *)
Theorem C32_size : forall h, size_strings (run h) = length (filter (fun b => match b with BString _ _ => true | _ => false end) (entries (run h))).
Proof.
  intros h. unfold size_strings, entries. rewrite filter_app, app_length.
  assert (E1 : forall l, filter (fun b => match b with BString _ _ => true | _ => false end)
     (map (fun e : str * matrix => BMatrix (fst e) (snd e)) l) = []) by (induction l; auto).
  assert (E2 : forall l, length (filter (fun b => match b with BString _ _ => true | _ => false end)
     (map (fun e : str * str => BString (fst e) (snd e)) l)) = length l) by (induction l; cbn; auto).
  now rewrite E1, E2.
Qed.
Print Assumptions C32_size.
Theorem C32_size_refuted : exists h, size (run h) = 0%nat /\ size_matrices (run h) = 0%nat /\ length (values (run h)) = 1%nat.
Proof. exists [OSetScalar name_a 7]. conj; vm_compute; reflexivity. Qed.
Print Assumptions C32_size_refuted.

(** A wrong start marker (any byte but 'A' and 'S' behind the entries of a file) and a
    wrong end marker (the last byte of a file changed) are noticed: load() throws,
    keeping the entries before the wrong one. *)
Theorem C31_bad_marker_throws : forall h f a, saveable (run h) -> save [] (run h) = (f, true) ->
  (forall x junk, x <> magic_matrix -> x <> magic_string ->
     load [] (f ++ x :: junk) a = (fst (load [] f a), Threw)) /\
  (forall g last e rest, f = g ++ [last] -> e <> magic_end ->
     exists f' entry b, g = f' ++ entry /\ load [] f' a = (b, Returned) /\
       load [] (g ++ e :: rest) a = (b, Threw)).
Proof.
  intros h f a V E. rewrite save_ok in E by exact V. injection E as <-. rewrite filter_all.
  pose proof (entries_ok _ V) as O. split.
  - intros x junk N1 N2. rewrite load_all by exact O. cbn [fst].
    apply load_bad; [exact O|discriminate|now apply bad_start].
  - intros g l e rest E N. destruct (exists_last (l := entries (run h))) as (bs & b & Eb).
    { intros Z. rewrite Z in E. destruct g; discriminate. }
    rewrite Eb in *. apply Forall_app in O. destruct O as [O Ob]. inversion Ob as [|? ? Ob' _]; subst.
    rewrite flat_map_app in E. cbn [flat_map] in E. rewrite app_nil_r in E.
    destruct (encode_end b Ob') as (x & Ex & Hx). rewrite Ex, app_assoc in E. apply app_inj_tail in E.
    destruct E as [<- _]. exists (flat_map encode bs), x, (fold_left (put_block []) bs a).
    split; [reflexivity|]. split; [now apply load_all|].
    rewrite <- app_assoc. apply load_bad; [exact O|destruct x; discriminate|].
    now apply Hx.
Qed.
Print Assumptions C31_bad_marker_throws.

Example C31_ex3 : exists f g last, save [] (run some_history) = (f, true) /\ f = g ++ [last].
Proof.
  eexists. exists (removelast (fst (save [] (run some_history)))), 66. split; [vm_compute; reflexivity|vm_compute; reflexivity].
Qed.
