(** * Reference counting keeps the book *)
From Coq Require Import List Arith Bool Lia.
From Verif Require Import SopModel SopSpec.
Import ListNotations.

Definition owning (e : entry) : nat * bool :=
  (fst e, match snd e with Borrowed => false | Counted _ => true end).
Definition owned (o : nat) (l : list entry) : Prop := exists k, In (o, Counted k) l.
(** Counted pointers belong to the object of their control block. *)
Definition fits (g : list nat) (l : list entry) : Prop :=
  forall o k, In (o, Counted k) l -> nth_error g k = Some o.

Lemma owned_map : forall o l, In (o, true) (map owning l) <-> owned o l.
Proof.
  intros o l; split.
  - intros H. apply in_map_iff in H. destruct H as [[x [|k]] [E I]]; unfold owning in E; simpl in E.
    + discriminate E.
    + injection E as E; subst x. exists k; exact I.
  - intros [k I]. apply in_map_iff. exists (o, Counted k). split; [reflexivity | exact I].
Qed.

Lemma owned_app : forall o a b, owned o (a ++ b) <-> owned o a \/ owned o b.
Proof.
  intros o a b; unfold owned; split.
  - intros [k I]; apply in_app_or in I; destruct I as [I | I]; [left | right]; exists k; exact I.
  - intros [[k I] | [k I]]; exists k; apply in_or_app; [left | right]; exact I.
Qed.

Lemma fits_app : forall g a b, fits g (a ++ b) <-> fits g a /\ fits g b.
Proof.
  intros g a b; split.
  - intros H; split; intros o k I; apply H; apply in_or_app; [left | right]; exact I.
  - intros [A B] o k I; apply in_app_or in I; destruct I as [I | I]; [apply A | apply B]; exact I.
Qed.

Lemma fits_more : forall g x l, fits g l -> fits (g ++ x) l.
Proof.
  intros g x l H o k I. specialize (H o k I). rewrite nth_error_app1; [exact H |].
  apply nth_error_Some. rewrite H. discriminate.
Qed.

Lemma eqb_in : forall o l, existsb (Nat.eqb o) l = true <-> In o l.
Proof.
  intros o l; rewrite existsb_exists; split.
  - intros [x [I E]]; apply Nat.eqb_eq in E; subst x; exact I.
  - intros I; exists o; split; [exact I | apply Nat.eqb_refl].
Qed.

Lemma uses_owned : forall g l o k, NoDup g -> fits g l -> nth_error g k = Some o ->
  (existsb (uses k) l = true <-> owned o l).
Proof.
  intros g l o k N F E; rewrite existsb_exists; split.
  - intros [[x [|j]] [I U]]; unfold uses in U; simpl in U.
    + discriminate U.
    + apply Nat.eqb_eq in U; subst j. pose proof (F x k I) as E'.
      rewrite E in E'; injection E' as E'; subst x. exists k; exact I.
  - intros [j I]. exists (o, Counted j); split; [exact I |].
    unfold uses; simpl. apply Nat.eqb_eq.
    pose proof (F o j I) as E'. rewrite NoDup_nth_error in N. apply N.
    + apply nth_error_Some. rewrite E'. discriminate.
    + rewrite E'; symmetry; exact E.
Qed.

(** The deleted objects are the given ones without a pointer. *)
Definition fair (g : list nat) (l : list entry) (del : list nat) : Prop :=
  NoDup del /\ forall o, In o del <-> In o g /\ ~ owned o l.

Lemma release_ok : forall g e rest del, NoDup g -> fits g (e :: rest) -> fair g (e :: rest) del ->
  exists d, release e rest del = Some d /\ fair g rest d.
Proof.
  intros g [o [|k]] rest del N F [ND D]; unfold release; simpl.
  - exists del; split; [reflexivity |]. split; [exact ND |].
    intros x; rewrite D. split; intros [A B]; (split; [exact A |]); intros [j I]; apply B; exists j.
    + right; exact I.
    + destruct I as [I | I]; [discriminate I | exact I].
  - assert (E : nth_error g k = Some o) by (apply F; left; reflexivity).
    assert (F' : fits g rest) by (intros x j I; apply F; right; exact I).
    destruct (existsb (uses k) rest) eqn:U.
    + exists del; split; [reflexivity |]. split; [exact ND |].
      apply (uses_owned g rest o k N F' E) in U.
      intros x; rewrite D. split; intros [A B]; (split; [exact A |]); intros [j I].
      * apply B; exists j; right; exact I.
      * destruct I as [I | I].
        -- injection I as I1 I2; subst x. apply B; exact U.
        -- apply B; exists j; exact I.
    + assert (NU : ~ owned o rest).
      { intros O. apply (uses_owned g rest o k N F' E) in O. rewrite O in U; discriminate U. }
      assert (NO : ~ In o del).
      { intros I. apply D in I. destruct I as [_ B]. apply B. exists k; left; reflexivity. }
      destruct (existsb (Nat.eqb o) del) eqn:X.
      { apply eqb_in in X. contradiction. }
      exists (o :: del); split; [reflexivity |]. split; [constructor; assumption |].
      intros x; simpl. split.
      * intros [-> | I].
        -- split; [eapply nth_error_In; exact E | exact NU].
        -- apply D in I. destruct I as [A B]. split; [exact A |]. intros [j I]. apply B; exists j; right; exact I.
      * intros [A B]. destruct (Nat.eq_dec o x) as [-> | Ne]; [left; reflexivity | right].
        apply D. split; [exact A |]. intros [j [I | I]].
        -- injection I as I1 I2; contradiction.
        -- apply B; exists j; exact I.
Qed.

Lemma release_all_ok : forall g others l del, NoDup g -> fits g (l ++ others) -> fair g (l ++ others) del ->
  exists d, release_all l others del = Some d /\ fair g others d.
Proof.
  intros g others l; induction l as [|e l IH]; intros del N F D; simpl.
  - exists del; split; [reflexivity | exact D].
  - destruct (release_ok g e (l ++ others) del N F D) as [d [E D']]. rewrite E.
    apply IH; [exact N | intros o k I; apply F; right; exact I | exact D'].
Qed.

Lemma fair_perm : forall g a b del, (forall o, owned o a <-> owned o b) -> fair g a del -> fair g b del.
Proof.
  intros g a b del H [N D]; split; [exact N |]. intros o; rewrite D, H; reflexivity.
Qed.

Record rel (s : st) (b : book) : Prop := mkRel {
  r_dvs : map owning (dvs s) = vars b;
  r_ets : map owning (ets s) = terms b;
  r_held : map owning (held s) = map (fun o => (o, true)) (mine b);
  r_fresh : fresh s = length (given b);
  r_fits : fits (given b) (ets s ++ dvs s ++ held s);
  r_fair : fair (given b) (ets s ++ dvs s ++ held s) (deleted s) }.

Lemma map_fst_owning : forall l, map fst (map owning l) = map fst l.
Proof. intros l; rewrite map_map; reflexivity. Qed.

Lemma known_in : forall o l, known o l = existsb (Nat.eqb o) l.
Proof.
  intros o l; unfold known. destruct (in_dec Nat.eq_dec o l) as [I | I].
  - symmetry; apply eqb_in; exact I.
  - destruct (existsb (Nat.eqb o) l) eqn:E; [apply eqb_in in E; contradiction | reflexivity].
Qed.

Lemma rel_in : forall s b o, rel s b -> is_in s o = known o (map fst (vars b)).
Proof.
  intros s b o H; rewrite known_in; unfold is_in. rewrite <- (r_dvs s b H), map_fst_owning; reflexivity.
Qed.

Lemma take_spec : forall o l m, map owning l = map (fun x => (x, true)) m ->
  match take o l with
  | None => known o m = false
  | Some (e, r) =>
      known o m = true /\ (exists k, e = (o, Counted k)) /\
      (exists l1 l2, l = l1 ++ e :: l2 /\ r = l1 ++ l2) /\
      map owning r = map (fun x => (x, true)) (remove_one o m)
  end.
Proof.
  intros o l; induction l as [|[x hx] l IH]; intros [|y m] E; try discriminate E.
  - reflexivity.
  - simpl in E. unfold owning at 1 in E; simpl in E.
    destruct hx as [|k]; [discriminate E |]. injection E as E1 E2; subst y.
    specialize (IH m E2). simpl. rewrite known_in in *. simpl.
    destruct (Nat.eqb_spec o x) as [-> | Ne].
    + simpl. destruct (Nat.eq_dec x x) as [_ | C]; [| contradiction].
      split; [reflexivity |]. split; [exists k; reflexivity |].
      split; [exists [], l; split; reflexivity | exact E2].
    + destruct (Nat.eq_dec x o) as [C | _]; [symmetry in C; contradiction |].
      simpl. destruct (take o l) as [[e r] |]; [| exact IH].
      destruct IH as [A [B [[l1 [l2 [C1 C2]]] M]]].
      split; [exact A |]. split; [exact B |]. split.
      * exists ((x, Counted k) :: l1), l2. subst l r. split; reflexivity.
      * simpl. rewrite M. reflexivity.
Qed.

Lemma fits_wrap : forall g l o own s, fresh s = length g -> fits g l ->
  fits (if own : bool then g ++ [o] else g) (wrap s o own :: l).
Proof.
  intros g l o own s E F x k [I | I].
  - unfold wrap in I. destruct own; [| discriminate I]. injection I as I1 I2; subst x k.
    rewrite E, nth_error_app2 by lia. rewrite Nat.sub_diag; reflexivity.
  - destruct own; [apply (fits_more g [o] l F) | apply F]; exact I.
Qed.

Lemma fair_wrap : forall g l o own s del, fits g l -> fair g l del ->
  NoDup (if own : bool then g ++ [o] else g) ->
  fair (if own : bool then g ++ [o] else g) (wrap s o own :: l) del.
Proof.
  intros g l o own s del F [N D] ND; split; [exact N |]. intros x; rewrite D.
  destruct own; unfold wrap.
  - split.
    + intros [A B]; split; [apply in_or_app; left; exact A |]. intros [k [I | I]].
      * injection I as I1 I2; subst x. rewrite app_nil_end in A.
        apply NoDup_remove_2 in ND. apply ND. exact A.
      * apply B; exists k; exact I.
    + intros [A B]; split.
      * apply in_app_or in A. destruct A as [A | [A | []]]; [exact A |]. subst x.
        exfalso; apply B; exists (fresh s); left; reflexivity.
      * intros [k I]; apply B; exists k; right; exact I.
  - split; intros [A B]; (split; [exact A |]); intros [k I]; apply B; exists k.
    + destruct I as [I | I]; [discriminate I | exact I].
    + right; exact I.
Qed.

Lemma owned_cons : forall o e l, owned o (e :: l) <-> owned o [e] \/ owned o l.
Proof. intros o e l; exact (owned_app o [e] l). Qed.

Lemma fits_cons : forall g e l, fits g (e :: l) <-> fits g [e] /\ fits g l.
Proof. intros g e l; exact (fits_app g [e] l). Qed.

Lemma given_more : forall b p, exists x, given (account b p) = given b ++ x.
Proof.
  intros b p; unfold account. destruct (carried b p).
  - destruct p as [o own|o|o own|o|o|o|]; simpl; try destruct own;
      try (exists []; symmetry; apply app_nil_r); exists [o]; reflexivity.
  - exists []; symmetry; apply app_nil_r.
Qed.

Lemma fits_same : forall g l e, fits g l -> In e l -> fits g (e :: l).
Proof. intros g l e F I o k [J | J]; [subst e; apply F; exact I | apply F; exact J]. Qed.

Lemma owned_same : forall o l e, In e l -> (owned o (e :: l) <-> owned o l).
Proof.
  intros o l e I; split; intros [k J]; exists k; [| right; exact J].
  destruct J as [J | J]; [subst e; exact I | exact J].
Qed.

Lemma step_ok : forall s b p, rel s b -> NoDup (given (account b p)) ->
  exists s', step s p = Some (s', carried b p) /\ rel s' (account b p).
Proof.
  intros s b p H N. pose proof H as [H1 H2 H3 H4 H5 H6]. unfold account in *.
  destruct p as [o own|o|o own|o|o|o|]; simpl in *.
  - (* AddDv *)
    rewrite (rel_in s b o H). destruct (known o (map fst (vars b))); simpl in *.
    + exists s; split; [reflexivity | exact H].
    + eexists; split; [reflexivity |].
      pose proof (fits_wrap _ _ o own s H4 H5) as F. pose proof (fair_wrap _ _ o own s _ H5 H6 N) as D.
      constructor; simpl.
      * rewrite map_app, H1. unfold wrap, owning; simpl. destruct own; reflexivity.
      * exact H2.
      * exact H3.
      * unfold fresh'. destruct own; [rewrite app_length; simpl; lia | exact H4].
      * rewrite fits_cons, !fits_app in F. rewrite !fits_app. intuition.
      * eapply fair_perm; [| exact D]. intros x. rewrite owned_cons, !owned_app. intuition.
  - (* AddDvShared *)
    pose proof (take_spec o (held s) (mine b) H3) as T. destruct (take o (held s)) as [[e r] |].
    + destruct T as [K [[k E] [[l1 [l2 [L R]]] M]]]. rewrite K in *; simpl in *.
      rewrite (rel_in s b o H). destruct (known o (map fst (vars b))); simpl in *.
      * exists s; split; [reflexivity | exact H].
      * eexists; split; [reflexivity |].
        assert (I : In e (ets s ++ dvs s ++ held s)).
        { rewrite L. apply in_or_app; right. apply in_or_app; right. apply in_or_app; right. left; reflexivity. }
        pose proof (fits_same _ _ _ H5 I) as F.
        constructor; simpl; try assumption.
        -- rewrite map_app, H1, E. reflexivity.
        -- rewrite fits_cons, !fits_app in F. rewrite !fits_app. intuition.
        -- eapply fair_perm; [| exact H6]. intros x. rewrite <- (owned_same x _ e I).
           rewrite owned_cons, !owned_app. intuition.
    + rewrite T in *; simpl in *. exists s; split; [reflexivity | exact H].
  - (* AddEt *)
    eexists; split; [reflexivity |].
    pose proof (fits_wrap _ _ o own s H4 H5) as F. pose proof (fair_wrap _ _ o own s _ H5 H6 N) as D.
    constructor; simpl.
    + exact H1.
    + rewrite map_app, H2. unfold wrap, owning; simpl. destruct own; reflexivity.
    + exact H3.
    + unfold fresh'. destruct own; [rewrite app_length; simpl; lia | exact H4].
    + rewrite fits_cons, !fits_app in F. rewrite !fits_app. intuition.
    + eapply fair_perm; [| exact D]. intros x. rewrite owned_cons, !owned_app. intuition.
  - (* AddEtShared *)
    pose proof (take_spec o (held s) (mine b) H3) as T. destruct (take o (held s)) as [[e r] |].
    + destruct T as [K [[k E] [[l1 [l2 [L R]]] M]]]. rewrite K in *; simpl in *.
      eexists; split; [reflexivity |].
      assert (I : In e (ets s ++ dvs s ++ held s)).
      { rewrite L. apply in_or_app; right. apply in_or_app; right. apply in_or_app; right. left; reflexivity. }
      pose proof (fits_same _ _ _ H5 I) as F.
      constructor; simpl; try assumption.
      * rewrite map_app, H2, E. reflexivity.
      * rewrite fits_cons, !fits_app in F. rewrite !fits_app. intuition.
      * eapply fair_perm; [| exact H6]. intros x. rewrite <- (owned_same x _ e I).
        rewrite owned_cons, !owned_app. intuition.
    + rewrite T in *; simpl in *. exists s; split; [reflexivity | exact H].
  - (* Make *)
    eexists; split; [reflexivity |].
    pose proof (fits_wrap _ _ o true s H4 H5) as F. pose proof (fair_wrap _ _ o true s _ H5 H6 N) as D.
    simpl in F, D. constructor; simpl.
    + exact H1.
    + exact H2.
    + rewrite H3. reflexivity.
    + rewrite app_length; simpl; lia.
    + rewrite fits_cons, !fits_app in F. rewrite !fits_app, fits_cons. intuition.
    + eapply fair_perm; [| exact D]. intros x. rewrite owned_cons, !owned_app.
      rewrite (owned_cons x (wrap s o true) (held s)). intuition.
  - (* Drop *)
    pose proof (take_spec o (held s) (mine b) H3) as T. destruct (take o (held s)) as [[e r] |].
    + destruct T as [K [[k E] [[l1 [l2 [L R]]] M]]]. rewrite K in *; simpl in *.
      assert (F : fits (given b) (e :: ets s ++ dvs s ++ r)).
      { rewrite fits_cons, !fits_app. rewrite L, !fits_app, fits_cons in H5. rewrite R, fits_app. intuition. }
      assert (D : fair (given b) (e :: ets s ++ dvs s ++ r) (deleted s)).
      { eapply fair_perm; [| exact H6]. intros x. rewrite owned_cons, !owned_app, L, R, !owned_app.
        rewrite (owned_cons x e l2). intuition. }
      destruct (release_ok _ _ _ _ N F D) as [d [Q D']]. rewrite Q.
      eexists; split; [reflexivity |]. constructor; simpl; try assumption.
      rewrite fits_cons in F. apply F.
    + rewrite T in *; simpl in *. exists s; split; [reflexivity | exact H].
  - (* Clear *)
    destruct (release_all_ok (given b) (dvs s ++ held s) (ets s) (deleted s) N H5 H6) as [d [Q D]].
    rewrite Q. rewrite fits_app in H5.
    destruct (release_all_ok (given b) (held s) (dvs s) d N (proj2 H5) D) as [d' [Q' D']]. rewrite Q'.
    eexists; split; [reflexivity |]. constructor; simpl; try assumption; try reflexivity.
    destruct H5 as [_ H5]. rewrite fits_app in H5. apply H5.
Qed.

Lemma given_run : forall h b, exists x, given (fold_left account h b) = given b ++ x.
Proof.
  induction h as [|p h IH]; intros b; simpl.
  - exists []; symmetry; apply app_nil_r.
  - destruct (IH (account b p)) as [x E]. destruct (given_more b p) as [y E'].
    exists (y ++ x). rewrite E, E', app_assoc; reflexivity.
Qed.

Lemma NoDup_front : forall (a b : list nat), NoDup (a ++ b) -> NoDup a.
Proof.
  induction a as [|x a IH]; intros b H; [constructor |]. inversion H as [|? ? N1 N2]; subst.
  constructor; [intros I; apply N1; apply in_or_app; left; exact I | exact (IH b N2)].
Qed.

Lemma run_ok : forall h s b, rel s b -> NoDup (given (fold_left account h b)) ->
  exists s', run s h = Some (s', answers b h) /\ rel s' (fold_left account h b).
Proof.
  induction h as [|p h IH]; intros s b H N; simpl in *.
  - exists s; split; [reflexivity | exact H].
  - destruct (given_run h (account b p)) as [x E]. rewrite E in N.
    destruct (step_ok s b p H (NoDup_front _ _ N)) as [s1 [Q1 R1]]. rewrite Q1.
    rewrite <- E in N. destruct (IH s1 (account b p) R1 N) as [s2 [Q2 R2]]. rewrite Q2.
    exists s2; split; [reflexivity | exact R2].
Qed.

Lemma init_rel : rel init blank.
Proof.
  constructor; simpl; try reflexivity.
  - intros o k [].
  - split; [constructor |]. intros o; split; [intros [] | intros [[] _]].
Qed.

Lemma kept_owned : forall s b o, rel s b -> (kept b o <-> owned o (ets s ++ dvs s ++ held s)).
Proof.
  intros s b o H. rewrite !owned_app, <- !owned_map, (r_dvs s b H), (r_ets s b H), (r_held s b H).
  unfold kept. assert (E : In (o, true) (map (fun x : nat => (x, true)) (mine b)) <-> In o (mine b)).
  { rewrite in_map_iff. split; [intros [x [E I]]; injection E as E; subst x; exact I | intros I; exists o; split; [reflexivity | exact I]]. }
  rewrite E. tauto.
Qed.

(** Without any assumption on the program. *)
Lemma step_nodup : forall s p s' a, NoDup (map fst (dvs s)) ->
  step s p = Some (s', a) -> NoDup (map fst (dvs s')).
Proof.
  assert (SN : forall (l : list nat) o, NoDup l -> existsb (Nat.eqb o) l = false -> NoDup (l ++ [o])).
  { intros l o N E. apply NoDup_rev in N. rewrite <- (rev_involutive (l ++ [o])). apply NoDup_rev.
    rewrite rev_app_distr; simpl. constructor; [| exact N]. intros I. apply in_rev in I.
    apply eqb_in in I. rewrite I in E; discriminate E. }
  assert (TK : forall o l e r, take o l = Some (e, r) -> fst e = o).
  { intros o l; induction l as [|x l IH]; intros e r E; [discriminate E |]. simpl in E.
    destruct (Nat.eqb_spec o (fst x)) as [Q | _].
    - injection E as E1 E2; subst x; symmetry; exact Q.
    - destruct (take o l) as [[y q] |] eqn:T; [| discriminate E].
      injection E as E1 E2; subst y. exact (IH e q eq_refl). }
  intros s p s' a N E. destruct p as [o own|o|o own|o|o|o|]; simpl in E.
  - destruct (is_in s o) eqn:K; injection E as E1 E2; subst s'; [exact N |]. simpl.
    rewrite map_app; simpl. apply SN; [exact N | exact K].
  - destruct (take o (held s)) as [[e r] |] eqn:T; [| injection E as E1 E2; subst s'; exact N].
    destruct (is_in s o) eqn:K; injection E as E1 E2; subst s'; [exact N |]. simpl.
    rewrite map_app; simpl. rewrite (TK _ _ _ _ T). apply SN; [exact N | exact K].
  - injection E as E1 E2; subst s'; exact N.
  - destruct (take o (held s)) as [[e r] |]; injection E as E1 E2; subst s'; exact N.
  - injection E as E1 E2; subst s'; exact N.
  - destruct (take o (held s)) as [[e r] |]; [| injection E as E1 E2; subst s'; exact N].
    destruct (release e _ _); [| discriminate E]. injection E as E1 E2; subst s'; exact N.
  - destruct (release_all (ets s) _ _); [| discriminate E].
    destruct (release_all (dvs s) _ _); [| discriminate E]. injection E as E1 E2; subst s'. constructor.
Qed.

Lemma run_nodup : forall h s s' a, NoDup (map fst (dvs s)) -> run s h = Some (s', a) -> NoDup (map fst (dvs s')).
Proof.
  induction h as [|p h IH]; intros s s' a N E; simpl in E.
  - injection E as E1 E2; subst s'; exact N.
  - destruct (step s p) as [[s1 x] |] eqn:Q; [| discriminate E].
    destruct (run s1 h) as [[s2 y] |] eqn:Q2; [| discriminate E]. injection E as E1 E2; subst s2.
    apply (IH s1 s' y); [| exact Q2]. exact (step_nodup s p s1 x N Q).
Qed.
