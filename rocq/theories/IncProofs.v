(** Proofs about incremental problems. *)
From Coq Require Import ZArith List Arith Bool Lia Permutation.
From Verif Require Import Base OMap PermuteModel PermuteProofs BatchModel BatchSpec BatchProofs BatchProps IncModel IncSpec.
Import ListNotations.
Open Scope nat_scope.

(** ** What batches show *)
Record described (uses : nat -> list nat) (p : problem) (vs : list (nat * nat)) (ts : list nat) : Prop := {
  d_nodup : NoDup (map fst vs);
  d_variable : forall i, design_variable i p = match nth_error (map fst vs) i with Some d => Ok d | None => Throw end;
  d_group : forall d g, group_of d p = Ok g <-> In (d, g) vs;
  d_num : num_variables p = length vs;
  d_has : forall d, is_variable d p = true <-> In d (map fst vs);
  d_terms : terms p = ts;
  d_tnodup : NoDup ts;
  d_term : forall i, error_term i p = match nth_error ts i with Some e => Ok e | None => Throw end;
  d_tnum : num_terms p = length ts;
  d_thas : forall e, is_term e p = true <-> In e ts;
  d_closed : forall e d, In e ts -> In d (uses e) -> In d (map fst vs) }.

Lemma built_described uses p : built uses p -> exists vs ts, described uses p vs ts.
Proof.
  intros (w0 & h & ->). set (p := fst (run uses w0 h)). set (c := contents_of uses w0 h).
  pose proof (run_represents uses w0 h) as R. fold p c in R.
  destruct (C17_membership uses w0 h) as (M1 & M2 & M3 & M4 & M5 & M6). fold p c in M1, M2, M3, M4, M5, M6.
  destruct (C17_enumeration uses w0 h) as (_ & _ & _ & _ & _ & ls & ts & _ & E1 & E2 & E3 & E4). fold p c in E1, E2, E3, E4.
  destruct (C17_well_formed uses w0 h) as (W1 & W2 & W3). fold p c in W1, W2, W3.
  set (gr := fun d => match group_of d p with Ok g => g | _ => 0 end).
  exists (map (fun d => (d, gr d)) (concat ls)), (terms p).
  assert (F : map fst (map (fun d => (d, gr d)) (concat ls)) = concat ls) by (rewrite map_map; apply map_id).
  assert (T : Permutation (terms p) (errors c)) by apply R.
  constructor; rewrite ?F, ?map_length; auto.
  - eapply Permutation_NoDup; [apply Permutation_sym, E2|exact W1].
  - intros d g. rewrite in_map_iff. split.
    + intros G. exists d. unfold gr. rewrite G. split; auto. apply (Permutation_in _ (Permutation_sym E2)).
      apply M2 in G. apply in_map_iff. exists (d, g). auto.
    + intros (x & [= -> <-] & Hd). apply (Permutation_in _ E2) in Hd. apply in_map_iff in Hd. destruct Hd as ([y g] & Ey & Hd).
      cbn in Ey. subst y. apply M2 in Hd. unfold gr. now rewrite Hd.
  - rewrite M5. rewrite (Permutation_length E2). now rewrite map_length.
  - intros d. rewrite M1. split; apply Permutation_in; [apply Permutation_sym|]; exact E2.
  - eapply Permutation_NoDup; [apply Permutation_sym, T|exact W2].
  - intros i. unfold error_term. destruct (Nat.leb_spec (length (terms p)) i) as [L|L].
    + apply nth_error_None in L. now rewrite L.
    + destruct (nth_error (terms p) i) eqn:E; auto. apply nth_error_None in E. lia.
  - rewrite M6. symmetry. now apply Permutation_length.
  - intros e. rewrite M4. split; apply Permutation_in; [apply Permutation_sym|]; exact T.
  - intros e d He Hd. apply (Permutation_in _ (Permutation_sym E2)), M1, (W3 e); auto. apply M4. now apply (Permutation_in _ T).
Qed.

(** ** Small facts *)
Lemma grouped_perm gs ms ms' : Permutation ms ms' -> grouped gs ms -> grouped gs ms'.
Proof.
  intros P [S H]. split; auto. intros g. specialize (H g).
  assert (Q : Permutation (in_group g ms) (in_group g ms')).
  { unfold in_group. apply Permutation_map. clear - P.
    induction P as [|x l l' P IH|x y l|l l' l'' P1 IH1 P2 IH2]; cbn; auto.
    - destruct (snd x =? g); auto.
    - destruct (snd x =? g), (snd y =? g); auto. constructor.
    - now rewrite IH1. }
  destruct (nget g gs).
  - destruct H as [H1 H2]. split; auto. now rewrite <- Q.
  - rewrite H in Q. now apply Permutation_nil in Q.
Qed.
Lemma ordered_perm ord ms ms' : Permutation ms ms' -> ordered ord ms -> ordered ord ms'.
Proof.
  intros P [N H]. split; auto. intros g. rewrite H. split; apply Permutation_in; [|apply Permutation_sym]; now apply Permutation_map.
Qed.

Lemma erase_first_in x l : In x l -> exists l', erase_first x l = Some l' /\ Permutation l (x :: l').
Proof.
  induction l as [|y l IH]; cbn; [tauto|]. intros H. destruct (Nat.eqb_spec y x) as [-> |N].
  - eauto.
  - destruct H as [H|H]; [congruence|]. destruct (IH H) as (l' & -> & P). exists (y :: l'). split; auto.
    rewrite perm_swap. now constructor.
Qed.
Lemma erase_at_perm {A} i (l : list A) x : nth_error l i = Some x -> Permutation l (x :: erase_at i l).
Proof.
  revert i. induction l as [|y l IH]; intros [|i]; cbn; try discriminate.
  - intros [= ->]. reflexivity.
  - intros H. rewrite perm_swap. constructor. now apply IH.
Qed.
Lemma erase_at_map {A B} (f : A -> B) i (l : list A) : map f (erase_at i l) = erase_at i (map f l).
Proof. revert i. induction l as [|y l IH]; intros [|i]; cbn; auto. now rewrite IH. Qed.

Definition mem (cs : list (nat * (Z * nat))) : list (nat * nat) := map (fun e => (fst e, snd (snd e))) cs.
Lemma mem_fst cs : map fst (mem cs) = map fst cs.
Proof. unfold mem. rewrite map_map. reflexivity. Qed.
Lemma mem_in cs d g : sorted Nat.compare cs -> (In (d, g) (mem cs) <-> exists c, nget d cs = Some (c, g)).
Proof.
  intros S. unfold mem. rewrite in_map_iff. split.
  - intros ([k [c g']] & [= -> ->] & H). exists c. now apply (mget_in _ Natcompare_order).
  - intros (c & H). apply (mget_in _ Natcompare_order) in H; auto. exists (d, (c, g)). auto.
Qed.
Lemma mem_put_same d c c' g cs : sorted Nat.compare cs -> nget d cs = Some (c, g) -> mem (nput d (c', g) cs) = mem cs.
Proof.
  unfold mem. induction cs as [|[k [x y]] cs IH]; cbn [mget mput]; [discriminate|]. intros [S1 S2] G.
  destruct (Nat.compare_spec d k) as [-> |L|L].
  - injection G as -> ->. reflexivity.
  - discriminate.
  - cbn. f_equal. now apply IH.
Qed.

Record coherent (s : inc) (rc : nat -> nat) (grp : nat -> nat) : Prop := {
  c_sorted : sorted Nat.compare (counts s);
  c_counts : forall d, nget d (counts s) = match rc d with 0 => None | S n => Some (Z.of_nat (S n), grp d) end;
  c_groups : grouped (igroups s) (mem (counts s));
  c_order : ordered (iorder s) (mem (counts s)) }.

Lemma coherent_ext s rc grp rc' grp' : (forall d, rc d = rc' d) -> (forall d, rc d <> 0 -> grp d = grp' d) ->
  coherent s rc grp -> coherent s rc' grp'.
Proof.
  intros E1 E2 [A B C D]. constructor; auto. intros d. rewrite B. specialize (E1 d). specialize (E2 d).
  rewrite <- E1. destruct (rc d); auto. now rewrite E2.
Qed.

Definition bump (d : nat) (rc : nat -> nat) : nat -> nat := fun x => if x =? d then S (rc x) else rc x.
Definition setg (d g : nat) (grp : nat -> nat) : nat -> nat := fun x => if x =? d then g else grp x.

Lemma count_one_ok s rc grp d g : coherent s rc grp -> (rc d = 0 \/ grp d = g) ->
  exists s', count_one d g s = (s', Returned) /\ coherent s' (bump d rc) (setg d g grp) /\
    probs s' = probs s /\ ibackup s' = ibackup s.
Proof.
  intros [A B C D] H. unfold count_one. rewrite B. destruct (rc d) as [|n] eqn:E.
  - eexists. split; [reflexivity|]. cbn [probs ibackup]. split; [|auto].
    assert (G0 : nget d (counts s) = None) by (rewrite B, E; reflexivity).
    assert (P : Permutation (mem (counts s) ++ [(d, g)]) (mem (nput d (1%Z, g) (counts s)))).
    { unfold mem. rewrite <- Permutation_cons_append.
      rewrite (Permutation_map _ (mput_perm Nat.compare d (1%Z, g) (counts s) G0 A)). reflexivity. }
    constructor; cbn [counts igroups iorder].
    + now apply nsorted_put.
    + intros x. unfold bump, setg. destruct (Nat.eqb_spec x d) as [-> |N].
      * rewrite nget_put_same, E. reflexivity.
      * rewrite nget_put_other by auto. apply B.
    + eapply grouped_perm; [exact P|]. now apply grouped_push.
    + eapply ordered_perm; [exact P|]. unfold ihas_group. now apply ordered_push.
  - destruct H as [H|H]; [discriminate|]. rewrite H, Nat.eqb_refl. eexists. split; [reflexivity|].
    cbn [probs ibackup]. split; [|auto].
    assert (G0 : nget d (counts s) = Some (Z.of_nat (S n), g)) by (rewrite B, E, H; reflexivity).
    assert (M : mem (nput d ((Z.of_nat (S n) + 1)%Z, g) (counts s)) = mem (counts s)) by (eapply mem_put_same; eauto).
    assert (Hg : ihas_group g s = true).
    { unfold ihas_group. apply nhas_iff, (grouped_has _ _ _ C). apply in_map_iff. exists (d, g). split; auto. apply mem_in; eauto. }
    rewrite Hg. constructor; cbn [counts igroups iorder]; rewrite ?M; auto.
    + now apply nsorted_put.
    + intros x. unfold bump, setg. destruct (Nat.eqb_spec x d) as [-> |N].
      * rewrite nget_put_same, E. do 2 f_equal. lia.
      * rewrite nget_put_other by auto. apply B.
Qed.
Lemma count_one_bad s rc grp d g : coherent s rc grp -> ~ (rc d = 0 \/ grp d = g) ->
  exists s', count_one d g s = (s', Threw) /\ probs s' = probs s /\ ibackup s' = ibackup s /\ counts s' = counts s /\ igroups s' = igroups s.
Proof.
  intros [A B C D] H. unfold count_one. rewrite B. destruct (rc d) as [|n] eqn:E; [tauto|].
  destruct (Nat.eqb_spec (grp d) g); [tauto|]. eexists. split; [reflexivity|]. auto.
Qed.

Fixpoint count_list (vs : list (nat * nat)) (s : inc) : inc * ending :=
  match vs with
  | [] => (s, Returned)
  | (d, g) :: r => match count_one d g s with (s', Returned) => count_list r s' | (s', e) => (s', e) end
  end.
Lemma count_in_list uses p vs ts : described uses p vs ts -> forall s, count_in p (num_variables p) 0 s = count_list vs s.
Proof.
  intros D. rewrite (d_num _ _ _ _ D).
  assert (X : forall suf pre s, vs = pre ++ suf -> count_in p (length suf) (length pre) s = count_list suf s).
  { induction suf as [|[d g] suf IH]; intros pre s E; [reflexivity|]. cbn [length count_in count_list].
    rewrite (d_variable _ _ _ _ D), E, map_app, nth_error_app2 by (rewrite map_length; lia).
    rewrite map_length, Nat.sub_diag. cbn [map nth_error fst].
    assert (G : group_of d p = Ok g) by (apply (d_group _ _ _ _ D); rewrite E; apply in_or_app; right; now left).
    rewrite G. destruct (count_one d g s) as [s' []]; auto.
    specialize (IH (pre ++ [(d, g)]) s'). rewrite app_length in IH. cbn in IH. rewrite Nat.add_1_r in IH.
    apply IH. now rewrite <- app_assoc. }
  intros s. exact (X vs [] s eq_refl).
Qed.

Definition inb (d : nat) (l : list nat) : nat := if in_dec Nat.eq_dec d l then 1 else 0.
Lemma inb_cons d x l : ~ In x l -> inb d (x :: l) = (if d =? x then 1 else 0) + inb d l.
Proof.
  intros N. unfold inb. destruct (Nat.eqb_spec d x) as [-> |E].
  - destruct (in_dec Nat.eq_dec x (x :: l)) as [I|I]; [|exfalso; apply I; now left].
    destruct (in_dec Nat.eq_dec x l); [contradiction|reflexivity].
  - destruct (in_dec Nat.eq_dec d (x :: l)) as [I|I], (in_dec Nat.eq_dec d l) as [J|J]; auto.
    + destruct I; [congruence|contradiction].
    + exfalso. apply I. now right.
Qed.
Definition assoc_g (vs : list (nat * nat)) (grp : nat -> nat) (d : nat) : nat :=
  match find (fun e => fst e =? d) vs with Some (_, g) => g | None => grp d end.

Lemma assoc_in vs grp d g : NoDup (map fst vs) -> In (d, g) vs -> assoc_g vs grp d = g.
Proof.
  unfold assoc_g. induction vs as [|[a b] vs IH]; cbn; [tauto|]. intros N [[= -> ->] |H].
  - now rewrite Nat.eqb_refl.
  - inversion N; subst. destruct (Nat.eqb_spec a d) as [-> |E]; [|auto].
    exfalso. apply H2, in_map_iff. exists (d, g). auto.
Qed.
Lemma assoc_out vs grp d : ~ In d (map fst vs) -> assoc_g vs grp d = grp d.
Proof.
  unfold assoc_g. induction vs as [|[a b] vs IH]; cbn; auto. intros N.
  destruct (Nat.eqb_spec a d) as [-> |E]; [exfalso; auto|]. apply IH. auto.
Qed.

Lemma count_list_ok vs : forall s rc grp, coherent s rc grp -> NoDup (map fst vs) ->
  (forall d g, In (d, g) vs -> rc d = 0 \/ grp d = g) ->
  exists s', count_list vs s = (s', Returned) /\
    coherent s' (fun d => rc d + inb d (map fst vs)) (assoc_g vs grp) /\ probs s' = probs s /\ ibackup s' = ibackup s.
Proof.
  induction vs as [|[d g] vs IH]; intros s rc grp C N H; cbn [count_list map fst] in *.
  - exists s. split; auto. split; auto. eapply coherent_ext; [| |exact C]; intros; unfold inb, assoc_g; cbn; auto.
  - inversion N as [|? ? N1 N2]; subst.
    destruct (count_one_ok s rc grp d g C (H d g (or_introl eq_refl))) as (s1 & -> & C1 & P1 & B1).
    destruct (IH s1 (bump d rc) (setg d g grp) C1 N2) as (s2 & E2 & C2 & P2 & B2).
    { intros x y Hx. unfold bump, setg. destruct (Nat.eqb_spec x d) as [-> |E].
      - exfalso. apply N1, in_map_iff. exists (d, y). auto.
      - apply H. now right. }
    exists s2. split; [exact E2|]. split; [|split; congruence].
    eapply coherent_ext; [| |exact C2].
    + intros x. cbv beta. rewrite inb_cons by exact N1. unfold bump. destruct (x =? d); lia.
    + intros x _. unfold assoc_g. cbn [find fst]. rewrite (Nat.eqb_sym d x). unfold setg.
      destruct (Nat.eqb_spec x d) as [-> |E]; [|reflexivity].
      destruct (find (fun e => fst e =? d) vs) as [[a b]|] eqn:F; [|reflexivity].
      apply find_some in F. destruct F as [F1 F2]. apply Nat.eqb_eq in F2. cbn in F2. subst a.
      exfalso. apply N1, in_map_iff. exists (d, b). auto.
Qed.
Lemma count_list_bad vs : forall s rc grp, coherent s rc grp -> NoDup (map fst vs) ->
  ~ (forall d g, In (d, g) vs -> rc d = 0 \/ grp d = g) ->
  exists s', count_list vs s = (s', Threw) /\ probs s' = probs s /\ ibackup s' = ibackup s.
Proof.
  induction vs as [|[d g] vs IH]; intros s rc grp C N H; cbn [count_list map fst] in *.
  - exfalso. apply H. intros ? ? [].
  - inversion N as [|? ? N1 N2]; subst.
    destruct (Nat.eq_dec (rc d) 0) as [Z|Z]; [|destruct (Nat.eq_dec (grp d) g) as [G|G]].
    3:{ destruct (count_one_bad s rc grp d g C) as (s1 & -> & P1 & B1 & _); [tauto|]. eauto. }
    all: destruct (count_one_ok s rc grp d g C) as (s1 & -> & C1 & P1 & B1); [tauto|];
      destruct (IH s1 (bump d rc) (setg d g grp) C1 N2) as (s2 & E2 & P2 & B2);
      [|exists s2; rewrite E2, P2, B2; auto];
      intros X; apply H; intros x y [[= -> ->] |Hx]; [tauto|];
      specialize (X x y Hx); unfold bump, setg in X; destruct (Nat.eqb_spec x d) as [-> |E]; auto;
      exfalso; apply N1, in_map_iff; exists (d, y); auto.
Qed.

(** ** Removing *)
Definition drop (d : nat) (rc : nat -> nat) : nat -> nat := fun x => if x =? d then rc x - 1 else rc x.

Lemma uncount_one_ok s rc grp d n : coherent s rc grp -> rc d = S n ->
  exists s', uncount_one d s = (s', Returned) /\ coherent s' (drop d rc) grp /\ probs s' = probs s /\
    ibackup s' = (if n =? 0 then ndel d (ibackup s) else ibackup s).
Proof.
  intros [A B C D] E. pose proof (B d) as G0. rewrite E in G0. unfold uncount_one. rewrite G0.
  assert (Ed : dec (Z.of_nat (S n)) = Z.of_nat n).
  { unfold dec. destruct (Z.eqb_spec (Z.of_nat (S n)) 0); lia. }
  rewrite Ed. destruct (Z.eqb_spec (Z.of_nat n) 0) as [Z|Z].
  - assert (n = 0) by lia. subst n. cbn [Nat.eqb].
    set (ms' := mem (ndel d (counts s))).
    assert (P : Permutation (mem (counts s)) ((d, grp d) :: ms')).
    { unfold ms', mem. rewrite (Permutation_map _ (mdel_perm Nat.compare Natcompare_order d _ (counts s) G0 A)) at 1. reflexivity. }
    assert (Sd : sorted Nat.compare (ndel d (counts s))) by (apply mdel_sorted; auto using Natcompare_order).
    assert (Cd : forall x, nget x (ndel d (counts s)) = match drop d rc x with 0 => None | S n => Some (Z.of_nat (S n), grp x) end).
    { intros x. unfold drop. destruct (Nat.eqb_spec x d) as [-> |N].
      - rewrite E. cbn. apply mget_del_same; auto using Natcompare_order.
      - rewrite mget_del_other by (auto using Natcompare_order). apply B. }
    pose proof C as [Cs Cg]. pose proof (Cg (grp d)) as Cgd.
    assert (Ig : Permutation (in_group (grp d) (mem (counts s))) (d :: in_group (grp d) ms')).
    { assert (X : forall ms a b, Permutation ms ((a, b) :: ms') -> Permutation (in_group b ms) (a :: in_group b ms')).
      { intros ms a b Q. transitivity (in_group b ((a, b) :: ms')).
        - unfold in_group. apply Permutation_map. clear - Q.
          induction Q as [|x l l' Q IH|x y l|l l' l'' P1 IH1 P2 IH2]; cbn; auto.
          + destruct (snd x =? b); auto.
          + destruct (snd x =? b), (snd y =? b); auto. constructor.
          + now rewrite IH1.
        - unfold in_group. cbn. rewrite Nat.eqb_refl. reflexivity. }
      now apply X. }
    assert (Io : forall g, g <> grp d -> Permutation (in_group g (mem (counts s))) (in_group g ms')).
    { intros g N. unfold in_group. apply Permutation_map.
      transitivity (filter (fun m => snd m =? g) ((d, grp d) :: ms')).
      - clear - P. induction P as [|x l l' Q IH|x y l|l l' l'' P1 IH1 P2 IH2]; cbn; auto.
        + destruct (snd x =? g); auto.
        + destruct (snd x =? g), (snd y =? g); auto. constructor.
        + now rewrite IH1.
      - cbn. destruct (Nat.eqb_spec (grp d) g); [congruence|reflexivity]. }
    destruct (nget (grp d) (igroups s)) as [l|] eqn:Gg.
    2:{ rewrite Cgd in Ig. apply Permutation_nil in Ig. discriminate. }
    destruct Cgd as [Nl Pl].
    assert (Hl : In d l) by (apply (Permutation_in _ (Permutation_sym Pl)), (Permutation_in _ (Permutation_sym Ig)); now left).
    destruct (erase_first_in d l Hl) as (l' & El & Pl'). rewrite El.
    assert (Pr : Permutation l' (in_group (grp d) ms')).
    { apply (Permutation_cons_inv (a := d)). rewrite <- Pl', Pl. exact Ig. }
    destruct l' as [|y l'].
    + assert (Hz : in_group (grp d) ms' = []) by (now apply Permutation_nil in Pr).
      assert (Ho : In (grp d) (iorder s)).
      { apply D. apply (grouped_has _ _ _ C). congruence. }
      destruct (erase_first_in _ _ Ho) as (ord' & Eo & Po). rewrite Eo. eexists. split; [reflexivity|].
      cbn [probs ibackup]. split; [|auto]. constructor; cbn [counts igroups iorder]; auto; fold ms'.
      * split; [apply mdel_sorted; auto using Natcompare_order|]. intros g. destruct (Nat.eq_dec g (grp d)) as [-> |N].
        -- rewrite mget_del_same by (auto using Natcompare_order). exact Hz.
        -- rewrite mget_del_other by (auto using Natcompare_order). specialize (Cg g). specialize (Io g N).
           destruct (nget g (igroups s)).
           ++ destruct Cg as [Q1 Q2]. split; auto. now rewrite <- Io.
           ++ rewrite Cg in Io. now apply Permutation_nil in Io.
      * destruct D as [No Ho']. pose proof (Permutation_NoDup Po No) as No'. inversion No' as [|? ? N1 N2]; subst. split; auto.
        intros g. split.
        -- intros Hg. assert (g <> grp d) by congruence. assert (In g (iorder s)) as Hi by (apply (Permutation_in _ (Permutation_sym Po)); now right).
           apply Ho' in Hi. apply (Permutation_in _ (Permutation_map snd P)) in Hi. destruct Hi as [Hi|Hi]; [cbn in Hi; congruence|exact Hi].
        -- intros Hg. destruct (Nat.eq_dec g (grp d)) as [-> |N]; [apply in_group_nil in Hz; contradiction|].
           assert (In g (map snd (mem (counts s)))) as Hm by (apply (Permutation_in _ (Permutation_map snd (Permutation_sym P))); now right).
           apply Ho' in Hm. apply (Permutation_in _ Po) in Hm. destruct Hm; [congruence|auto].
    + eexists. split; [reflexivity|]. cbn [probs ibackup]. split; [|auto]. constructor; cbn [counts igroups iorder]; auto; fold ms'.
      * split; [now apply nsorted_put|]. intros g. destruct (Nat.eq_dec g (grp d)) as [-> |N].
        -- rewrite nget_put_same. split; [discriminate|exact Pr].
        -- rewrite nget_put_other by auto. specialize (Cg g). specialize (Io g N). destruct (nget g (igroups s)).
           ++ destruct Cg as [Q1 Q2]. split; auto. now rewrite <- Io.
           ++ rewrite Cg in Io. now apply Permutation_nil in Io.
      * destruct D as [No Ho']. split; auto. intros g. rewrite Ho'. split.
        -- intros Hi. apply (Permutation_in _ (Permutation_map snd P)) in Hi. destruct Hi as [<- |Hi]; [|exact Hi]. cbn [snd].
           apply in_map_iff. exists (y, grp d). split; auto. apply in_group_in. apply (Permutation_in _ Pr). now left.
        -- intros Hi. apply (Permutation_in _ (Permutation_map snd (Permutation_sym P))). now right.
  - destruct (Nat.eqb_spec n 0); [lia|]. eexists. split; [reflexivity|]. cbn [probs ibackup]. split; [|auto].
    assert (M : mem (nput d (Z.of_nat n, grp d) (counts s)) = mem (counts s)) by (eapply mem_put_same; eauto).
    constructor; cbn [counts igroups iorder]; rewrite ?M; auto.
    + now apply nsorted_put.
    + intros x. unfold drop. destruct (Nat.eqb_spec x d) as [-> |N].
      * rewrite nget_put_same, E. replace (S n - 1) with n by lia. destruct n; [lia|reflexivity].
      * rewrite nget_put_other by auto. apply B.
Qed.

Fixpoint uncount_list (ds : list nat) (s : inc) : inc * ending :=
  match ds with
  | [] => (s, Returned)
  | d :: r => match uncount_one d s with (s', Returned) => uncount_list r s' | (s', e) => (s', e) end
  end.
Lemma uncount_in_list uses p vs ts : described uses p vs ts -> forall s, uncount_in p (num_variables p) 0 s = uncount_list (map fst vs) s.
Proof.
  intros D. rewrite (d_num _ _ _ _ D).
  assert (X : forall suf pre s, map fst vs = pre ++ suf -> uncount_in p (length suf) (length pre) s = uncount_list suf s).
  { induction suf as [|d suf IH]; intros pre s E; [reflexivity|]. cbn [length uncount_in uncount_list].
    rewrite (d_variable _ _ _ _ D), E, nth_error_app2 by lia. rewrite Nat.sub_diag. cbn [nth_error].
    destruct (uncount_one d s) as [s' []]; auto.
    specialize (IH (pre ++ [d]) s'). rewrite app_length in IH. cbn in IH. rewrite Nat.add_1_r in IH.
    apply IH. now rewrite <- app_assoc. }
  intros s. rewrite <- (map_length fst vs). exact (X (map fst vs) [] s eq_refl).
Qed.

(** Which backups survive: those of variables still used. *)
Definition backup_after (ds : list nat) (rc : nat -> nat) (b b' : list (nat * Z)) : Prop :=
  forall x, nget x b' = if in_dec Nat.eq_dec x ds then (if rc x =? 1 then None else nget x b) else nget x b.
Lemma uncount_list_ok ds : forall s rc grp, coherent s rc grp -> NoDup ds -> (forall d, In d ds -> rc d <> 0) ->
  sorted Nat.compare (ibackup s) ->
  exists s', uncount_list ds s = (s', Returned) /\ coherent s' (fun d => rc d - inb d ds) grp /\ probs s' = probs s /\
    sorted Nat.compare (ibackup s') /\ backup_after ds rc (ibackup s) (ibackup s').
Proof.
  induction ds as [|d ds IH]; intros s rc grp C N H Sb; cbn [uncount_list].
  - exists s. split; auto. split; [|split; [auto|split; auto]].
    + eapply coherent_ext; [| |exact C]; intros; unfold inb; cbn; auto. lia.
    + intros x. reflexivity.
  - inversion N as [|? ? N1 N2]; subst. destruct (rc d) as [|n] eqn:E; [exfalso; apply (H d); [now left|exact E]|].
    destruct (uncount_one_ok s rc grp d n C E) as (s1 & -> & C1 & P1 & B1).
    assert (Sb1 : sorted Nat.compare (ibackup s1)).
    { rewrite B1. destruct (n =? 0); auto. apply mdel_sorted; auto using Natcompare_order. }
    destruct (IH s1 (drop d rc) grp C1 N2) as (s2 & E2 & C2 & P2 & S2 & B2); auto.
    { intros x Hx. unfold drop. destruct (Nat.eqb_spec x d) as [-> |X]; [contradiction|]. apply H. now right. }
    exists s2. split; [exact E2|]. split; [|split; [congruence|split; [exact S2|]]].
    + eapply coherent_ext; [| |exact C2]; auto. intros x. cbv beta. rewrite inb_cons by exact N1. unfold drop. destruct (x =? d); lia.
    + intros x. rewrite (B2 x). destruct (Nat.eq_dec x d) as [-> |X].
      * destruct (in_dec Nat.eq_dec d ds); [contradiction|]. destruct (in_dec Nat.eq_dec d (d :: ds)) as [I|I]; [|exfalso; apply I; now left].
        rewrite B1, E. cbn [Nat.eqb]. destruct (n =? 0) eqn:En; auto. apply mget_del_same; auto using Natcompare_order.
      * assert (Ex : nget x (ibackup s1) = nget x (ibackup s)).
        { rewrite B1. destruct (n =? 0); auto. apply mget_del_other; auto using Natcompare_order. }
        assert (Dx : drop d rc x = rc x) by (unfold drop; destruct (Nat.eqb_spec x d); congruence).
        rewrite Ex, Dx. destruct (in_dec Nat.eq_dec x ds) as [I|I], (in_dec Nat.eq_dec x (d :: ds)) as [J|J]; auto.
        -- exfalso. apply J. now right.
        -- destruct J; [congruence|contradiction].
Qed.

(** ** The invariant *)
Section Inv.
Variable uses : nat -> list nat.

Record good (s : inc) (grp : nat -> nat) : Prop := {
  g_built : Forall (built uses) (live s);
  g_coherent : coherent s (fun d => refcount d s) grp;
  g_group : forall b d g, In b (live s) -> group_of d b = Ok g -> grp d = g;
  g_terms : NoDup (flat_map terms (live s));
  g_backup : sorted Nat.compare (ibackup s) }.

Lemma refcount_pos d s : refcount d s <> 0 <-> exists b, In b (live s) /\ is_variable d b = true.
Proof.
  unfold refcount. split.
  - intros H. destruct (filter (is_variable d) (live s)) as [|b l] eqn:E; [cbn in H; lia|]. exists b.
    apply filter_In. rewrite E. now left.
  - intros (b & H). apply filter_In in H. destruct (filter (is_variable d) (live s)); [contradiction|discriminate].
Qed.

Lemma is_variable_group p d : built uses p -> is_variable d p = true -> exists g, group_of d p = Ok g.
Proof.
  intros B H. destruct (built_described uses p B) as (vs & ts & D). apply (d_has _ _ _ _ D) in H.
  apply in_map_iff in H. destruct H as ([x g] & Ex & H). cbn in Ex. subst x. exists g. now apply (d_group _ _ _ _ D).
Qed.

Lemma fits_compat s grp p vs ts : good s grp -> described uses p vs ts -> 
  ((forall b d g g', In b (live s) -> group_of d b = Ok g -> group_of d p = Ok g' -> g = g') <->
   (forall d g, In (d, g) vs -> refcount d s = 0 \/ grp d = g)).
Proof.
  intros G D. split.
  - intros H d g Hd. destruct (Nat.eq_dec (refcount d s) 0) as [Z|Z]; [now left|right].
    apply refcount_pos in Z. destruct Z as (b & Hb & Vb).
    pose proof (g_built _ _ G) as FB. rewrite Forall_forall in FB.
    destruct (is_variable_group b d (FB b Hb) Vb) as (g0 & E). rewrite (g_group _ _ G b d g0 Hb E).
    apply (H b d g0 g Hb E). now apply (d_group _ _ _ _ D).
  - intros H b d g g' Hb E E'. apply (d_group _ _ _ _ D) in E'. destruct (H d g' E') as [Z|Z].
    + exfalso. revert Z. apply refcount_pos. exists b. split; auto.
      unfold group_of in E. unfold is_variable. apply nhas_iff. destruct (nget d (lookup b)); congruence.
    + now rewrite <- (g_group _ _ G b d g Hb E).
Qed.

Lemma terms_new_spec p vs ts s : described uses p vs ts ->
  terms_new p (num_terms p) 0 s = (if forallb (fun e => negb (ihas_term e s)) ts then Returned else Threw).
Proof.
  intros D. rewrite (d_tnum _ _ _ _ D).
  assert (X : forall suf pre, ts = pre ++ suf -> terms_new p (length suf) (length pre) s =
    (if forallb (fun e => negb (ihas_term e s)) suf then Returned else Threw)).
  { induction suf as [|e suf IH]; intros pre E; [reflexivity|]. cbn [length terms_new forallb].
    rewrite (d_term _ _ _ _ D), E, nth_error_app2 by lia. rewrite Nat.sub_diag. cbn [nth_error].
    destruct (ihas_term e s); cbn; auto. specialize (IH (pre ++ [e])). rewrite app_length in IH. cbn in IH.
    rewrite Nat.add_1_r in IH. apply IH. now rewrite <- app_assoc. }
  exact (X ts [] eq_refl).
Qed.

Lemma ihas_term_spec s e : ihas_term e s = true <-> exists b, In b (live s) /\ is_term e b = true.
Proof.
  unfold ihas_term, live. rewrite existsb_exists. split.
  - intros (b & H & E). exists (snd b). split; auto. now apply in_map.
  - intros (b & H & E). apply in_map_iff in H. destruct H as (x & <- & H). eauto.
Qed.

Lemma term_terms b e : built uses b -> (is_term e b = true <-> In e (terms b)).
Proof. intros B. destruct (built_described uses b B) as (vs & ts & D). rewrite (d_terms _ _ _ _ D). apply (d_thas _ _ _ _ D). Qed.

(** Adding *)
Lemma add_cases s grp id p : good s grp -> built uses p ->
  (fits p s -> exists s', add (Some (id, p)) s = (s', Returned) /\ probs s' = probs s ++ [(id, p)] /\ ibackup s' = ibackup s /\
     exists grp', good s' grp') /\
  (~ fits p s -> exists s', add (Some (id, p)) s = (s', Threw) /\ probs s' = probs s /\ ibackup s' = ibackup s).
Proof.
  intros G B. destruct (built_described uses p B) as (vs & ts & D).
  pose proof (fits_compat s grp p vs ts G D) as FC. unfold add. rewrite (count_in_list uses p vs ts D).
  pose proof (d_nodup _ _ _ _ D) as Nv.
  assert (TS : forall s1, probs s1 = probs s -> terms_new p (num_terms p) 0 s1 = (if forallb (fun e => negb (ihas_term e s)) ts then Returned else Threw)).
  { intros s1 E. rewrite (terms_new_spec p vs ts s1 D). unfold ihas_term. now rewrite E. }
  assert (TF : forallb (fun e => negb (ihas_term e s)) ts = true <-> forall b e, In b (live s) -> is_term e b = true -> is_term e p = false).
  { rewrite forallb_forall. split.
    - intros H b e Hb Eb. destruct (is_term e p) eqn:E; auto. apply (d_thas _ _ _ _ D) in E. specialize (H e E).
      apply negb_true_iff in H. assert (ihas_term e s = true); [|congruence]. apply ihas_term_spec. eauto.
    - intros H e He. destruct (ihas_term e s) eqn:E; auto. apply ihas_term_spec in E. destruct E as (b & Hb & Eb).
      specialize (H b e Hb Eb). apply (d_thas _ _ _ _ D) in He. congruence. }
  split.
  - intros [F1 F2]. pose proof (proj1 FC F1) as F1'. apply TF in F2.
    destruct (count_list_ok vs s _ grp (g_coherent _ _ G) Nv F1') as (s1 & -> & C1 & P1 & B1).
    rewrite (TS s1 P1), F2. eexists. split; [reflexivity|]. cbn [probs ibackup]. rewrite P1, B1. split; [auto|]. split; [auto|].
    exists (assoc_g vs grp). constructor; unfold live; cbn [probs counts igroups iorder ibackup]; rewrite ?P1, ?B1, ?map_app; cbn [map snd].
    + apply Forall_app. split; [apply G|constructor; auto].
    + destruct C1 as [X1 X2 X3 X4]. constructor; cbn [counts igroups iorder]; auto. intros d. rewrite X2.
      assert (Er : refcount d s + inb d (map fst vs) = length (filter (is_variable d) (live s ++ [p]))).
      { unfold refcount. rewrite filter_app, app_length. f_equal. cbn [filter].
        pose proof (d_has _ _ _ _ D d) as Hd. unfold inb. destruct (in_dec Nat.eq_dec d (map fst vs)) as [I|I].
        - apply Hd in I. now rewrite I.
        - destruct (is_variable d p); [exfalso; apply I, Hd; auto|reflexivity]. }
      rewrite Er. unfold refcount, live. cbn [probs]. rewrite ?P1, map_app. cbn [map snd]. reflexivity.
    + intros b d g Hb Hg. apply in_app_iff in Hb. destruct Hb as [Hb|[<- |[]]].
      * fold (live s) in Hb. pose proof (g_group _ _ G b d g Hb Hg) as E. destruct (in_dec Nat.eq_dec d (map fst vs)) as [I|I].
        -- apply in_map_iff in I. destruct I as ([x g'] & Ex & I). cbn in Ex. subst x.
           rewrite (assoc_in vs grp d g' Nv I). symmetry. apply (F1 b d g g' Hb Hg). now apply (d_group _ _ _ _ D).
        -- now rewrite assoc_out.
      * apply assoc_in; auto. now apply (d_group _ _ _ _ D).
    + rewrite flat_map_app. cbn [flat_map]. rewrite app_nil_r. apply NoDup_app_intro.
      * apply G.
      * rewrite (d_terms _ _ _ _ D). apply D.
      * intros e He Hp. apply in_flat_map in He. destruct He as (b & Hb & He).
        pose proof (g_built _ _ G) as FB. rewrite Forall_forall in FB. fold (live s) in Hb.
        apply (term_terms b e (FB b Hb)) in He. apply (term_terms p e B) in Hp.
        assert (X := proj1 TF F2 b e Hb He). congruence.
    + apply G.
  - intros NF. destruct (forallb (fun e => negb (ihas_term e s)) ts) eqn:ET.
    + assert (N1 : ~ (forall d g, In (d, g) vs -> refcount d s = 0 \/ grp d = g)).
      { intros X. apply NF. split; [now apply FC|now apply TF]. }
      destruct (count_list_bad vs s _ grp (g_coherent _ _ G) Nv N1) as (s1 & -> & P1 & B1). eauto.
    + (* the first loop may end either way *)
      assert (DEC : (forall d g, In (d, g) vs -> refcount d s = 0 \/ grp d = g) \/ ~ (forall d g, In (d, g) vs -> refcount d s = 0 \/ grp d = g)).
      { clear. induction vs as [|[d g] vs IH]; [left; intros ? ? []|].
        destruct IH as [IH|IH].
        - destruct (Nat.eq_dec (refcount d s) 0) as [Z|Z]; [left; intros ? ? [[= <- <-] |H]; auto|].
          destruct (Nat.eq_dec (grp d) g) as [Z'|Z']; [left; intros ? ? [[= <- <-] |H]; auto|].
          right. intros X. destruct (X d g (or_introl eq_refl)); contradiction.
        - right. intros X. apply IH. intros d' g' H'. apply X. now right. }
      destruct DEC as [X|X].
      * destruct (count_list_ok vs s _ grp (g_coherent _ _ G) Nv X) as (s1 & -> & C1 & P1 & B1).
        rewrite (TS s1 P1). eauto.
      * destruct (count_list_bad vs s _ grp (g_coherent _ _ G) Nv X) as (s1 & -> & P1 & B1). eauto.
Qed.

Lemma remove_ok s grp idx id p : good s grp -> nth_error (probs s) idx = Some (id, p) ->
  exists s', remove idx s = (s', Returned) /\ probs s' = erase_at idx (probs s) /\ good s' grp /\
    forall d, nget d (ibackup s') = if refcount d s' =? 0 then (if refcount d s =? 0 then nget d (ibackup s) else None) else nget d (ibackup s).
Proof.
  intros G E. unfold remove. rewrite E.
  assert (Hp : In p (live s)) by (apply in_map_iff; exists (id, p); split; auto; now apply nth_error_In in E).
  pose proof (g_built _ _ G) as FB. rewrite Forall_forall in FB.
  destruct (built_described uses p (FB p Hp)) as (vs & ts & D). rewrite (uncount_in_list uses p vs ts D).
  destruct (uncount_list_ok (map fst vs) s _ grp (g_coherent _ _ G) (d_nodup _ _ _ _ D)) as (s1 & -> & C1 & P1 & S1 & B1).
  { intros d Hd. apply refcount_pos. exists p. split; auto. now apply (d_has _ _ _ _ D). }
  { apply G. }
  eexists. split; [reflexivity|]. cbn [probs]. rewrite P1. split; [auto|].
  assert (PL : Permutation (live s) (p :: erase_at idx (live s))).
  { apply erase_at_perm. unfold live. erewrite map_nth_error by exact E. reflexivity. }
  assert (Er : forall d, refcount d s - inb d (map fst vs) = length (filter (is_variable d) (erase_at idx (live s)))).
  { intros d. unfold refcount. assert (PF : Permutation (filter (is_variable d) (live s)) (filter (is_variable d) (p :: erase_at idx (live s)))).
    { clear - PL. induction PL as [|x l l' Q IH|x y l|l l' l'' P1 IH1 P2 IH2]; cbn; auto.
      + destruct (is_variable d x); auto.
      + destruct (is_variable d x), (is_variable d y); auto. constructor.
      + now rewrite IH1. }
    rewrite (Permutation_length PF). cbn [filter]. pose proof (d_has _ _ _ _ D d) as Hd. unfold inb.
    destruct (in_dec Nat.eq_dec d (map fst vs)) as [I|I].
    - apply Hd in I. rewrite I. cbn. lia.
    - destruct (is_variable d p); [exfalso; apply I, Hd; auto|lia]. }
  split.
  - constructor; unfold live; cbn [probs counts igroups iorder ibackup]; rewrite ?P1, ?erase_at_map; fold (live s).
    + apply Forall_forall. intros b Hb. apply FB. apply (Permutation_in _ (Permutation_sym PL)). now right.
    + destruct C1 as [X1 X2 X3 X4]. constructor; cbn [counts igroups iorder]; auto. intros d. rewrite X2.
      unfold refcount at 2, live. cbn [probs]. rewrite ?P1, erase_at_map. fold (live s). now rewrite Er.
    + intros b d g Hb. apply (g_group _ _ G b d g). apply (Permutation_in _ (Permutation_sym PL)). now right.
    + pose proof (g_terms _ _ G) as N. apply (Permutation_NoDup (Permutation_flat_map terms PL)) in N.
      cbn in N. clear - N. induction (terms p); auto. inversion N; auto.
    + exact S1.
  - intros d. cbn [ibackup]. rewrite (B1 d). unfold refcount at 2, live. cbn [probs]. rewrite ?P1, erase_at_map. fold (live s). rewrite <- Er. unfold inb.
    destruct (in_dec Nat.eq_dec d (map fst vs)) as [I|I].
    + assert (refcount d s <> 0) by (apply refcount_pos; exists p; split; auto; now apply (d_has _ _ _ _ D)).
      destruct (Nat.eqb_spec (refcount d s) 1), (Nat.eqb_spec (refcount d s - 1) 0), (Nat.eqb_spec (refcount d s) 0); auto; lia.
    + rewrite Nat.sub_0_r. destruct (refcount d s =? 0); reflexivity.
Qed.

Lemma find_batch_spec id l k : find_batch id l = Some k -> exists p, nth_error l k = Some (id, p).
Proof.
  revert k. induction l as [|[i p] l IH]; cbn; [discriminate|]. intros k. destruct (Nat.eqb_spec i id) as [-> |N].
  - intros [= <-]. cbn. eauto.
  - destruct (find_batch id l) as [j|]; [|discriminate]. intros [= <-]. cbn. auto.
Qed.
Lemma find_batch_none id l : find_batch id l = None <-> ~ In id (map fst l).
Proof.
  induction l as [|[i p] l IH]; cbn; [tauto|]. destruct (Nat.eqb_spec i id) as [-> |N].
  - split; [discriminate|tauto].
  - destruct (find_batch id l) as [j|]; [split; [discriminate|]|]; intuition congruence.
Qed.

Lemma good_empty : good empty_inc (fun _ => 0).
Proof.
  constructor; cbn; auto; try constructor.
  - cbn. auto.
  - intros d. reflexivity.
  - split; cbn; auto.
  - split; cbn; [constructor|tauto].
  - intros ? ? ? [].
Qed.

Lemma set_ordering_ok_inc s grp l : good s grp ->
  exists s' e, iset_ordering l s = (s', e) /\ probs s' = probs s /\ counts s' = counts s /\ ibackup s' = ibackup s /\ igroups s' = igroups s /\
    (e = Returned /\ ordered l (mem (counts s)) /\ iorder s' = l \/ e = Threw /\ ~ ordered l (mem (counts s)) /\ s' = s).
Proof.
  intros G. pose proof (set_ordering_ok _ _ _ l (c_groups _ _ _ (g_coherent _ _ G)) (c_order _ _ _ (g_coherent _ _ G))) as S.
  unfold iset_ordering. destruct (length l =? length (iorder s)); cbn [negb].
  - destruct (ordering_ok (igroups s) [] l).
    + do 2 eexists. split; [reflexivity|]. cbn. conj; auto. left. conj; auto. now apply S.
    + do 2 eexists. split; [reflexivity|]. conj; auto. right. conj; auto. intros X. apply S in X. destruct X. discriminate.
  - do 2 eexists. split; [reflexivity|]. conj; auto. right. conj; auto. intros X. apply S in X. destruct X. discriminate.
Qed.

Lemma good_reorder s grp s' : good s grp -> Permutation (probs s) (probs s') -> counts s' = counts s ->
  grouped (igroups s') (mem (counts s)) -> ordered (iorder s') (mem (counts s)) -> sorted Nat.compare (ibackup s') -> good s' grp.
Proof.
  intros [A B C D E] P Ec Hg Ho Hb.
  assert (PL : Permutation (live s) (live s')) by (now apply Permutation_map).
  assert (Er : forall d, refcount d s = refcount d s').
  { intros d. unfold refcount. apply Permutation_length. clear - PL.
    induction PL as [|x l l' Q IH|x y l|l l' l'' P1 IH1 P2 IH2]; cbn; auto.
    + destruct (is_variable d x); auto.
    + destruct (is_variable d x), (is_variable d y); auto. constructor.
    + now rewrite IH1. }
  constructor; auto.
  - eapply Permutation_Forall; eauto.
  - eapply coherent_ext; [exact Er|reflexivity|]. destruct B as [B1 B2 B3 B4]. constructor; rewrite ?Ec; auto.
  - intros b d g Hb' Hg'. apply (C b d g); auto. apply (Permutation_in _ (Permutation_sym PL)). exact Hb'.
  - eapply Permutation_NoDup; [|exact D]. now apply Permutation_flat_map.
Qed.

(** Every call but add() keeps the invariant, and none is undefined. *)
Lemma other_step s w grp o : good s grp -> is_add o = false ->
  snd (istep (s, w) o) <> Undefined /\ exists grp', good (fst (fst (istep (s, w) o))) grp'.
Proof.
  intros G Ho. destruct o as [b|idx|id|l|perm|perm g| | | |d v]; cbn [istep is_add] in *; try discriminate.
  - destruct (nth_error (probs s) idx) as [[id p]|] eqn:E.
    + destruct (remove_ok s grp idx id p G E) as (s' & -> & _ & G' & _). cbn. split; [discriminate|eauto].
    + unfold remove. rewrite E. cbn. split; [discriminate|eauto].
  - unfold remove_batch. destruct (find_batch id (probs s)) as [k|] eqn:F.
    + destruct (find_batch_spec _ _ _ F) as (p & E). destruct (remove_ok s grp k id p G E) as (s' & -> & _ & G' & _). cbn. split; [discriminate|eauto].
    + cbn. split; [discriminate|eauto].
  - destruct (set_ordering_ok_inc s grp l G) as (s' & e & -> & P & Ec & Eb & Eg & H). cbn.
    split; [destruct H as [(-> & _) | (-> & _)]; discriminate|]. exists grp. apply (good_reorder s); auto.
    + now rewrite P.
    + rewrite Eg. apply G.
    + destruct H as [(_ & H & ->) | (_ & _ & ->)]; auto. apply G.
    + rewrite Eb. apply G.
  - unfold permute_problems. pose proof (permute_perm (probs s) perm) as P. destruct (permute (probs s) perm); cbn; split; try discriminate;
      exists grp; auto; apply (good_reorder s); cbn; auto; apply G.
  - unfold ipermute_variables. destruct (nget g (igroups s)) as [l|] eqn:Eg; [|cbn; split; [discriminate|eauto]].
    pose proof (permute_perm l perm) as P. destruct (permute l perm); cbn; split; try discriminate; exists grp; auto;
      apply (good_reorder s); cbn; auto; try apply G; eapply grouped_permute; eauto; apply G.
  - cbn. split; [discriminate|]. exists grp. apply (good_reorder s); cbn; auto; try apply G. apply save_all_sorted, G.
  - cbn. split; [discriminate|eauto].
  - cbn. split; [discriminate|]. exists (fun _ => 0). pose proof good_empty as [A B C D E]. constructor; auto.
    + destruct B as [B1 B2 B3 B4]. constructor; auto.
    + cbn. apply G.
  - cbn. split; [discriminate|eauto].
Qed.

Lemma fits_dec s grp p : good s grp -> built uses p -> fits p s \/ ~ fits p s.
Proof.
  intros G B.
      destruct (built_described uses p B) as (vs & ts & D).
      pose proof (fits_compat s grp p vs ts G D) as FC.
      assert (DEC : (forall d g, In (d, g) vs -> refcount d s = 0 \/ grp d = g) \/ ~ (forall d g, In (d, g) vs -> refcount d s = 0 \/ grp d = g)).
      { clear. induction vs as [|[d g] vs IH]; [left; intros ? ? []|].
        destruct IH as [IH|IH].
        - destruct (Nat.eq_dec (refcount d s) 0) as [Z|Z]; [left; intros ? ? [[= <- <-] |H]; auto|].
          destruct (Nat.eq_dec (grp d) g) as [Z'|Z']; [left; intros ? ? [[= <- <-] |H]; auto|].
          right. intros X. destruct (X d g (or_introl eq_refl)); contradiction.
        - right. intros X. apply IH. intros d' g' H'. apply X. now right. }
      assert (DT : (forall b e, In b (live s) -> is_term e b = true -> is_term e p = false) \/
                   ~ (forall b e, In b (live s) -> is_term e b = true -> is_term e p = false)).
      { destruct (forallb (fun e => negb (ihas_term e s)) ts) eqn:F.
        - left. intros b e Hb Eb. destruct (is_term e p) eqn:Ep; auto. apply (d_thas _ _ _ _ D) in Ep.
          rewrite forallb_forall in F. specialize (F e Ep). apply negb_true_iff in F.
          assert (ihas_term e s = true) by (apply ihas_term_spec; eauto). congruence.
        - right. intros X. assert (forallb (fun e => negb (ihas_term e s)) ts = true); [|congruence].
          apply forallb_forall. intros e He. destruct (ihas_term e s) eqn:Ee; auto.
          apply ihas_term_spec in Ee. destruct Ee as (b & Hb & Eb). specialize (X b e Hb Eb). apply (d_thas _ _ _ _ D) in He. congruence. }
      unfold fits. rewrite FC. tauto.
Qed.

Lemma reachable_good h s : reachable uses h s -> exists grp, good (fst s) grp.
Proof.
  induction 1 as [w|h [s w] id p R IH B E|h [s w] o R IH Ho]; cbn [fst] in *.
  - exists (fun _ => 0). apply good_empty.
  - destruct IH as (grp & G). destruct (add_cases s grp id p G B) as [A1 A2]. cbn [istep] in *.
    destruct (add (Some (id, p)) s) as [s' e] eqn:Ea. cbn [snd fst] in *. subst e.
    assert (DF : fits p s \/ ~ fits p s) by exact (fits_dec s grp p G B).
    destruct DF as [F|F].
    + destruct (A1 F) as (s'' & E' & _ & _ & G'). injection E' as <-. exact G'.
    + destruct (A2 F) as (s'' & E' & _). discriminate.
  - destruct IH as (grp & G). exact (proj2 (other_step s w grp o G Ho)).
Qed.
End Inv.

(** ** What the problem shows *)
Section Shows.
Variable uses : nat -> list nat.

Lemma shows_variable s grp d : good uses s grp -> (ihas_variable d s = true <-> refcount d s <> 0).
Proof.
  intros G. unfold ihas_variable. rewrite nhas_iff, (c_counts _ _ _ (g_coherent _ _ _ G)).
  destruct (refcount d s); split; congruence.
Qed.
Lemma variable_of_group b d g : group_of d b = Ok g -> is_variable d b = true.
Proof. unfold group_of, is_variable. rewrite nhas_iff. destruct (nget d (lookup b)); congruence. Qed.
Lemma shows_group_of s grp d g : good uses s grp -> (igroup_of d s = Ok g <-> exists b, In b (live s) /\ group_of d b = Ok g).
Proof.
  intros G. unfold igroup_of. rewrite (c_counts _ _ _ (g_coherent _ _ _ G)). cbv beta.
  pose proof (refcount_pos d s) as P. pose proof (g_built _ _ _ G) as FB. rewrite Forall_forall in FB.
  destruct (refcount d s) as [|n] eqn:E.
  - split; [discriminate|]. intros (b & Hb & Eb). exfalso. apply (proj2 P); [|reflexivity].
    exists b. split; auto. now apply variable_of_group in Eb.
  - split.
    + intros [= <-]. destruct (proj1 P) as (b & Hb & Vb); [discriminate|]. exists b. split; auto.
      destruct (is_variable_group uses b d (FB b Hb) Vb) as (g & Eg). now rewrite (g_group _ _ _ G b d g Hb Eg).
    + intros (b & Hb & Eb). f_equal. exact (g_group _ _ _ G b d g Hb Eb).
Qed.
Lemma mem_shows s grp d g : good uses s grp -> (In (d, g) (mem (counts s)) <-> exists b, In b (live s) /\ group_of d b = Ok g).
Proof.
  intros G. rewrite <- (shows_group_of s grp d g G). rewrite mem_in by apply G. unfold igroup_of.
  destruct (nget d (counts s)) as [[c x]|]; split; try (intros (c' & H)); try congruence.
  intros [= ->]. eauto.
Qed.
Lemma mem_nodup s grp : good uses s grp -> NoDup (map fst (mem (counts s))).
Proof. intros G. rewrite mem_fst. apply (sorted_nodup _ Natcompare_order), G. Qed.

Lemma terms_num b : built uses b -> num_terms b = length (terms b).
Proof. intros B. destruct (built_described uses b B) as (vs & ts & D). rewrite (d_terms _ _ _ _ D). apply D. Qed.
Lemma terms_at b i : built uses b -> error_term i b = match nth_error (terms b) i with Some e => Ok e | None => Throw end.
Proof. intros B. destruct (built_described uses b B) as (vs & ts & D). rewrite (d_terms _ _ _ _ D). apply D. Qed.

Lemma locate_batch_spec l idx : Forall (built uses) (map snd l) -> forall k running, running <= idx ->
  match nth_error (flat_map terms (map snd l)) (idx - running) with
  | Some e => exists j i b, locate_batch l k idx running = Ok (k + j, i) /\ nth_error l j = Some b /\ error_term i (snd b) = Ok e
  | None => locate_batch l k idx running = Throw
  end.
Proof.
  induction l as [|[id b] l IH]; intros F k running L; cbn [map flat_map locate_batch snd].
  - now destruct (idx - running).
  - inversion F as [|? ? F1 F2]; subst. rewrite (terms_num b F1). destruct (Nat.ltb_spec idx (running + length (terms b))) as [X|X].
    + rewrite nth_error_app1 by lia. destruct (nth_error (terms b) (idx - running)) as [e|] eqn:E.
      * exists 0, (idx - running), (id, b). rewrite Nat.add_0_r. conj; auto. cbn. rewrite (terms_at b _ F1), E. reflexivity.
      * apply nth_error_None in E. lia.
    + rewrite nth_error_app2 by lia. specialize (IH F2 (S k) (running + length (terms b)) X).
      replace (idx - running - length (terms b)) with (idx - (running + length (terms b))) by lia.
      destruct (nth_error (flat_map terms (map snd l)) (idx - (running + length (terms b)))) as [e|].
      * destruct IH as (j & i & b' & E1 & E2 & E3). exists (S j), i, b'. conj; auto. rewrite E1. do 2 f_equal. lia.
      * exact IH.
Qed.
Lemma ierror_term_spec s grp i : good uses s grp ->
  ierror_term i s = match nth_error (flat_map terms (live s)) i with Some e => Ok e | None => Throw end.
Proof.
  intros G. unfold ierror_term. pose proof (locate_batch_spec (probs s) i (g_built _ _ _ G) 0 0 (Nat.le_0_l _)) as L.
  rewrite Nat.sub_0_r in L. fold (live s) in L. destruct (nth_error (flat_map terms (live s)) i) as [e|].
  - destruct L as (j & k & b & -> & E2 & E3). cbn [obind]. rewrite Nat.add_0_l, E2. exact E3.
  - now rewrite L.
Qed.
Lemma inum_terms_spec s grp : good uses s grp -> inum_terms s = length (flat_map terms (live s)).
Proof.
  intros G. pose proof (g_built _ _ _ G) as F. unfold inum_terms, live in *.
  assert (X : forall l n, Forall (built uses) (map snd l) -> fold_left (fun n (b : nat * problem) => n + num_terms (snd b)) l n = n + length (flat_map terms (map snd l))).
  { clear. induction l as [|[id b] l IH]; intros n F; cbn [fold_left map flat_map snd]; [cbn; lia|].
    inversion F; subst. rewrite IH, app_length, (terms_num b) by auto. lia. }
  now rewrite X.
Qed.

Lemma erase_at_split {A} i (l : list A) : i < length l -> erase_at i l = firstn i l ++ skipn (S i) l.
Proof.
  revert i. induction l as [|x l IH]; intros [|i] L; cbn in *; try lia; auto. f_equal. apply IH. lia.
Qed.

(** Saved values *)
Lemma saved_backup h s sv : last_saved uses h s sv -> ~ In IClear h ->
  (forall d, nget d (ibackup (fst s)) = sv d) /\ (forall d, ihas_variable d (fst s) = false -> sv d = None) /\ exists grp, good uses (fst s) grp.
Proof.
  induction 1 as [w|h [s w] sv id p R IH B E|h [s w] sv o R IH Ho]; intros NC.
  - cbn. conj; auto. exists (fun _ => 0). apply good_empty.
  - destruct IH as (I1 & I2 & grp & G); [intros X; apply NC, in_or_app; now left|]. cbn [fst snd] in *.
    destruct (add_cases uses s grp id p G B) as [A1 A2]. cbn [istep] in *.
    assert (F : exists s', add (Some (id, p)) s = (s', Returned) /\ probs s' = probs s ++ [(id, p)] /\ ibackup s' = ibackup s /\ exists grp', good uses s' grp').
    { destruct (add (Some (id, p)) s) as [s' e] eqn:Ea. cbn in E. subst e.
      pose proof (fun N => A2 N) as A2'. destruct (fits_dec uses s grp p G B) as [X|X]; [apply A1, X|].
      destruct (A2 X) as (? & ? & _). discriminate. }
    destruct F as (s' & Ea & Ep & Eb & grp' & G'). rewrite Ea. cbn [fst snd saved_step].
    assert (Mono : forall d, ihas_variable d s' = false -> ihas_variable d s = false).
    { intros d. destruct (ihas_variable d s) eqn:V; auto. intros V'. apply (shows_variable s grp d G), refcount_pos in V.
      destruct V as (b & Hb & Vb). assert (ihas_variable d s' = true); [|congruence].
      apply (shows_variable s' grp' d G'), refcount_pos. exists b. split; auto. unfold live. rewrite Ep, map_app. apply in_or_app. now left. }
    conj; eauto.
    + intros d. rewrite Eb, I1. destruct (ihas_variable d s') eqn:V; auto.
    + intros d V. now rewrite V.
  - destruct IH as (I1 & I2 & grp & G); [intros X; apply NC, in_or_app; now left|]. cbn [fst snd] in *.
    assert (NO : o <> IClear) by (intros ->; apply NC, in_or_app; right; now left).
    pose proof (other_step uses s w grp o G Ho) as [_ (grp' & G')].
    assert (Same : forall s', counts s' = counts s -> forall d, ihas_variable d s' = ihas_variable d s) by (intros s' Ec d; unfold ihas_variable; now rewrite Ec).
    assert (K : forall s', counts s' = counts s -> ibackup s' = ibackup s ->
      (forall d, nget d (ibackup s') = (if ihas_variable d s' then sv d else None)) /\
      (forall d, ihas_variable d s' = false -> (if ihas_variable d s' then sv d else None) = None)).
    { intros s' Ec Eb. split; intros d; rewrite (Same s' Ec); [rewrite Eb, I1; destruct (ihas_variable d s) eqn:V; auto|intros ->; auto]. }
    assert (KR : forall k, (forall d, nget d (ibackup (fst (remove k s))) = (if ihas_variable d (fst (remove k s)) then sv d else None)) /\
      (forall d, ihas_variable d (fst (remove k s)) = false -> (if ihas_variable d (fst (remove k s)) then sv d else None) = None)).
    { intros k. split; [|intros d ->; auto]. intros d. destruct (nth_error (probs s) k) as [[id p]|] eqn:E.
      - destruct (remove_ok uses s grp k id p G E) as (s' & -> & _ & Gr & Bk). cbn [fst]. rewrite (Bk d), I1.
        pose proof (shows_variable s' grp d Gr) as V'. pose proof (shows_variable s grp d G) as V.
        destruct (ihas_variable d s').
        + destruct (Nat.eqb_spec (refcount d s') 0); auto. exfalso. now apply V'.
        + destruct (Nat.eqb_spec (refcount d s') 0) as [Z|Z]; [|apply V' in Z; discriminate].
          destruct (Nat.eqb_spec (refcount d s) 0) as [Z'|Z']; auto. apply I2. destruct (ihas_variable d s); auto. exfalso. now apply V.
      - unfold remove. rewrite E. cbn [fst]. rewrite I1. destruct (ihas_variable d s) eqn:V; auto. }
    destruct o as [b|idx|id|l|perm|perm g| | | |d v]; cbn [istep is_add fst snd saved_step] in *; try discriminate; try contradiction.
    + specialize (KR idx). destruct (remove idx s) as [s' e]. cbn [fst snd] in *. destruct KR. conj; eauto.
    + unfold remove_batch in *. destruct (find_batch id (probs s)) as [k|].
      * specialize (KR k). destruct (remove k s) as [s' e]. cbn [fst snd] in *. destruct KR. conj; eauto.
      * cbn [fst snd] in *. destruct (K s eq_refl eq_refl). conj; eauto.
    + destruct (set_ordering_ok_inc uses s grp l G) as (s' & e & E1 & P & Ec & Eb & _). rewrite E1 in *. cbn [fst snd] in *.
      destruct (K s' Ec Eb). conj; eauto.
    + unfold permute_problems in *. destruct (permute (probs s) perm); cbn [fst snd] in *;
        match goal with |- context [ibackup ?S] => destruct (K S eq_refl eq_refl) end; conj; eauto.
    + unfold ipermute_variables in *. destruct (nget g (igroups s)); [destruct (permute l perm)|]; cbn [fst snd] in *;
        match goal with |- context [ibackup ?S] => destruct (K S eq_refl eq_refl) end; conj; eauto.
    + conj; [| |eauto].
      * intros d. unfold isave. cbn [ibackup]. rewrite save_all_spec, I1.
        unfold ihas_variable. destruct (in_dec Nat.eq_dec d (map fst (counts s))) as [X|X].
        -- assert (nhas d (counts s) = true) as ->; auto. apply nhas_iff. intros N. apply in_map_iff in X. destruct X as ([x y] & Ex & X).
           cbn in Ex. subst x. apply (mget_in _ Natcompare_order) in X; [congruence|apply G].
        -- destruct (nhas d (counts s)) eqn:V; auto. apply nhas_iff in V. exfalso. apply X.
           destruct (nget d (counts s)) as [y|] eqn:Ey; [|congruence]. apply (mget_in _ Natcompare_order) in Ey; [|apply G].
           apply in_map_iff. exists (d, y). auto.
      * intros d V. change (ihas_variable d (isave w s)) with (ihas_variable d s) in V. rewrite V. auto.
    + destruct (K s eq_refl eq_refl). conj; eauto.
    + destruct (K s eq_refl eq_refl). conj; eauto.
Qed.
End Shows.
