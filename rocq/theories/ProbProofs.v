From Coq Require Import ZArith List Bool Lia Permutation.
From Verif Require Import Base ProbModel ProbSpec.
Import ListNotations.
Open Scope Z_scope.

Lemma mem_in x l : mem x l = true <-> In x l.
Proof.
  unfold mem. rewrite existsb_exists. split.
  - intros (y & H & E). apply Z.eqb_eq in E. now subst.
  - intro H. exists x. split; [exact H | apply Z.eqb_refl].
Qed.
Lemma mem_not x l : mem x l = false <-> ~ In x l.
Proof. rewrite <- mem_in. destruct (mem x l); split; congruence. Qed.

Lemma erase_none x l : ~ In x l -> erase x l = l.
Proof.
  induction l as [ | y l IH]; intro H; [reflexivity | ]. cbn [erase].
  destruct (y =? x) eqn:E; [apply Z.eqb_eq in E; subst; exfalso; apply H; now left | ].
  rewrite IH; [reflexivity | ]. intro Hx. apply H. now right.
Qed.

Lemma erase_taken x l : taken x l (erase x l).
Proof.
  destruct (in_dec Z.eq_dec x l) as [H | H].
  - induction l as [ | y l IH]; [contradiction | ]. cbn [erase].
    destruct (y =? x) eqn:E.
    + apply Z.eqb_eq in E. subst. exact (taken_one x [] l (fun f => f)).
    + apply Z.eqb_neq in E. destruct H as [H | H]; [congruence | ].
      specialize (IH H). remember (erase x l) as l' eqn:El. clear El.
      destruct IH as [l Hl | a b Ha]; [contradiction | ].
      apply (taken_one x (y :: a) b). intros [H1 | H1]; congruence.
  - rewrite erase_none by exact H. now constructor.
Qed.

Lemma taken_fun x l l' : taken x l l' -> l' = erase x l.
Proof.
  intros [l0 H | a b H]; [now rewrite erase_none | ].
  induction a as [ | y a IH]; cbn [app erase].
  - now rewrite Z.eqb_refl.
  - destruct (y =? x) eqn:E; [apply Z.eqb_eq in E; exfalso; apply H; now left | ].
    f_equal. apply IH. intro Hx. apply H. now right.
Qed.

Lemma insert_perm k v l : Permutation (insert k v l) ((k, v) :: l).
Proof.
  induction l as [ | [k' v'] l IH]; cbn [insert]; [constructor; constructor | ].
  destruct (k <? k'); [reflexivity | ].
  etransitivity; [apply perm_skip; exact IH | apply perm_swap].
Qed.

Lemma erase_link_in d t l : In (d, t) l -> Permutation l ((d, t) :: erase_link d t l).
Proof.
  induction l as [ | [d' t'] l IH]; intro H; [contradiction | ]. cbn [erase_link].
  destruct ((d' =? d) && (t' =? t)) eqn:E.
  - apply andb_true_iff in E. rewrite !Z.eqb_eq in E. destruct E as (-> & ->). reflexivity.
  - destruct H as [H | H].
    + assert (d' = d /\ t' = t) as (-> & ->) by (split; congruence).
      rewrite !Z.eqb_refl in E. discriminate.
    + etransitivity; [apply perm_skip; exact (IH H) | apply perm_swap].
Qed.
Lemma erase_link_none d t l : ~ In (d, t) l -> erase_link d t l = l.
Proof.
  induction l as [ | [d' t'] l IH]; intro H; [reflexivity | ]. cbn [erase_link].
  destruct ((d' =? d) && (t' =? t)) eqn:E.
  - apply andb_true_iff in E. rewrite !Z.eqb_eq in E. destruct E as (-> & ->).
    exfalso. apply H. now left.
  - rewrite IH; [reflexivity | ]. intro Hx. apply H. now right.
Qed.

Lemma erase_links_perm t ds : forall l rest,
  Permutation l (map (fun d => (d, t)) ds ++ rest) ->
  Permutation (fold_left (fun l d => erase_link d t l) ds l) rest.
Proof.
  induction ds as [ | d ds IH]; intros l rest H; cbn [fold_left map app] in *; [exact H | ].
  apply IH. apply (Permutation_cons_inv (a := (d, t))).
  etransitivity; [ | exact H]. symmetry. apply erase_link_in.
  apply (Permutation_in _ (Permutation_sym H)). now left.
Qed.
Lemma erase_links_none t ds : forall l,
  (forall d, ~ In (d, t) l) -> fold_left (fun l d => erase_link d t l) ds l = l.
Proof.
  induction ds as [ | d ds IH]; intros l H; cbn [fold_left]; [reflexivity | ].
  rewrite erase_link_none by apply H. now apply IH.
Qed.

Lemma set_insert_in x y s : In y (set_insert x s) <-> y = x \/ In y s.
Proof.
  induction s as [ | z s IH]; cbn [set_insert].
  - cbn [In]. intuition congruence.
  - destruct (x <? z); [cbn [In]; intuition congruence | ].
    destruct (x =? z) eqn:E.
    + apply Z.eqb_eq in E. subst. cbn [In]. intuition congruence.
    + cbn [In]. rewrite IH. intuition congruence.
Qed.

Section Problem.
Variables (uses : Z -> list Z) (kept : Z -> bool) (debug : bool).

Definition all_links (ts : list Z) : list (Z * Z) :=
  flat_map (fun t => map (fun d => (d, t)) (uses t)) ts.

Lemma in_all_links ts d t : In (d, t) (all_links ts) <-> In t ts /\ In d (uses t).
Proof.
  unfold all_links. rewrite in_flat_map. split.
  - intros (t' & H1 & H2). apply in_map_iff in H2. destruct H2 as (d' & E & H2).
    assert (d' = d /\ t' = t) as (-> & ->) by (split; congruence). auto.
  - intros (H1 & H2). exists t. split; [exact H1 | ]. apply in_map_iff. eauto.
Qed.

Definition inv (p : prob) : Prop :=
  NoDup (dvars p) /\ Permutation (links p) (all_links (terms p)) /\
  Forall (fun t => kept t = true \/ NoDup (uses t)) (terms p).

Lemma erase_perm x l : In x l -> Permutation l (x :: erase x l).
Proof.
  intro H. induction l as [ | y l IH]; [contradiction | ]. cbn [erase].
  destruct (y =? x) eqn:E; [apply Z.eqb_eq in E; subst; reflexivity | ].
  apply Z.eqb_neq in E. destruct H as [H | H]; [congruence | ].
  etransitivity; [apply perm_skip; exact (IH H) | apply perm_swap].
Qed.
Lemma erase_incl x y l : In y (erase x l) -> In y l.
Proof.
  destruct (in_dec Z.eq_dec x l) as [H | H].
  - intro Hy. apply (Permutation_in _ (Permutation_sym (erase_perm x l H))). now right.
  - now rewrite erase_none.
Qed.

Lemma all_links_perm l l' : Permutation l l' -> Permutation (all_links l) (all_links l').
Proof. intro H. unfold all_links. now apply Permutation_flat_map. Qed.

Lemma remove_term_ok p t : inv p -> kept t = true \/ In t (terms p) ->
  exists p', remove_term uses kept p t = Ok p' /\ dvars p' = dvars p /\
    terms p' = erase t (terms p) /\ inv p'.
Proof.
  intros (I1 & I2 & I3) H. unfold remove_term.
  assert (E : kept t || mem t (terms p) = true).
  { apply orb_true_iff. rewrite mem_in. exact H. }
  rewrite E. eexists. split; [reflexivity | ]. cbn [dvars terms].
  split; [reflexivity | ]. split; [reflexivity | ].
  split; [exact I1 | ]. cbn [dvars terms links]. split.
  - destruct (in_dec Z.eq_dec t (terms p)) as [Hin | Hin].
    + apply erase_links_perm. etransitivity; [exact I2 | ].
      apply (all_links_perm _ _ (erase_perm _ _ Hin)).
    + rewrite (erase_none _ _ Hin). rewrite erase_links_none; [exact I2 | ].
      intros d Hd. apply (Permutation_in _ I2) in Hd. apply in_all_links in Hd. tauto.
  - rewrite Forall_forall in *. intros x Hx. apply I3. now apply erase_incl in Hx.
Qed.

Notation count := (count_occ Z.eq_dec).

Lemma erase_count_same x l : count (erase x l) x = pred (count l x).
Proof.
  induction l as [ | y l IH]; [reflexivity | ]. cbn [erase count_occ].
  destruct (y =? x) eqn:E.
  - apply Z.eqb_eq in E. destruct (Z.eq_dec y x); [reflexivity | contradiction].
  - apply Z.eqb_neq in E. cbn [count_occ]. destruct (Z.eq_dec y x); [contradiction | exact IH].
Qed.
Lemma erase_count_other x y l : x <> y -> count (erase x l) y = count l y.
Proof.
  intro N. induction l as [ | z l IH]; [reflexivity | ]. cbn [erase count_occ].
  destruct (z =? x) eqn:E.
  - apply Z.eqb_eq in E. destruct (Z.eq_dec z y); [congruence | reflexivity].
  - cbn [count_occ]. destruct (Z.eq_dec z y); congruence.
Qed.

Lemma filter_erase (f : Z -> bool) x l : f x = false -> filter f (erase x l) = filter f l.
Proof.
  intro H. induction l as [ | y l IH]; [reflexivity | ]. cbn [erase filter].
  destruct (y =? x) eqn:E.
  - apply Z.eqb_eq in E. subst. now rewrite H.
  - cbn [filter]. now rewrite IH.
Qed.
Lemma filter_id (f : Z -> bool) l : (forall x, In x l -> f x = true) -> filter f l = l.
Proof.
  induction l as [ | y l IH]; intro H; [reflexivity | ]. cbn [filter].
  rewrite (H y (or_introl eq_refl)), IH; [reflexivity | ]. intros x Hx. apply H. now right.
Qed.

Lemma remove_terms_ok (d : Z) ts : forall p, inv p ->
  (forall t, In t ts -> In d (uses t)) ->
  (forall t, In d (uses t) -> (count (terms p) t <= count ts t)%nat) ->
  (forall t, kept t = true \/ (count ts t <= count (terms p) t)%nat) ->
  exists p', remove_terms uses kept p ts = Ok p' /\ dvars p' = dvars p /\ inv p' /\
    terms p' = filter (fun t => negb (existsb (Z.eqb d) (uses t))) (terms p).
Proof.
  induction ts as [ | t ts IH]; intros p I Hu Hc Hk; cbn [remove_terms].
  - exists p. split; [reflexivity | ]. split; [reflexivity | ]. split; [exact I | ].
    symmetry. apply filter_id. intros x Hx. apply negb_true_iff.
    destruct (existsb (Z.eqb d) (uses x)) eqn:E; [ | reflexivity].
    apply mem_in in E. specialize (Hc _ E). cbn [count_occ] in Hc.
    apply (count_occ_In Z.eq_dec) in Hx. lia.
  - destruct (remove_term_ok p t I) as (p1 & E1 & D1 & T1 & I1).
    { destruct (Hk t) as [H | H]; [now left | right].
      cbn [count_occ] in H. destruct (Z.eq_dec t t); [ | congruence].
      apply (count_occ_In Z.eq_dec). lia. }
    rewrite E1. cbn [obind].
    destruct (IH p1 I1) as (p2 & E2 & D2 & I2 & T2).
    + intros x Hx. apply Hu. now right.
    + intros x Hx. specialize (Hc x Hx). rewrite T1. cbn [count_occ] in Hc.
      destruct (Z.eq_dec t x) as [-> | N].
      * rewrite erase_count_same. lia.
      * rewrite erase_count_other by exact N. lia.
    + intro x. destruct (Hk x) as [H | H]; [now left | right]. rewrite T1. cbn [count_occ] in H.
      destruct (Z.eq_dec t x) as [-> | N].
      * rewrite erase_count_same. lia.
      * rewrite erase_count_other by exact N. lia.
    + exists p2. split; [exact E2 | ]. split; [congruence | ]. split; [exact I2 | ].
      rewrite T2, T1. apply filter_erase. apply negb_false_iff, mem_in.
      apply Hu. now left.
Qed.

Lemma range_count d t l ts : Permutation l (all_links ts) ->
  count (range d l) t = (count (uses t) d * count ts t)%nat.
Proof.
  intro P. unfold range.
  assert (E : forall l, count (map snd (filter (fun e : Z * Z => fst e =? d) l)) t =
     length (filter (fun e : Z * Z => (fst e =? d) && (snd e =? t)) l)).
  { clear. induction l as [ | [a b] l IH]; [reflexivity | ]. cbn [filter fst snd].
    destruct (a =? d) eqn:Ea; cbn [andb]; [ | exact IH]. cbn [map snd count_occ].
    destruct (Z.eq_dec b t) as [-> | N].
    - rewrite Z.eqb_refl. cbn [length]. now rewrite IH.
    - apply Z.eqb_neq in N. now rewrite N. }
  rewrite E. clear E.
  assert (F : forall l l' : list (Z * Z), Permutation l l' ->
    length (filter (fun e : Z * Z => (fst e =? d) && (snd e =? t)) l) =
    length (filter (fun e : Z * Z => (fst e =? d) && (snd e =? t)) l')).
  { clear. intros l l' H. induction H as [ | x l l' H IH | x y l | ]; cbn [filter]; auto.
    - destruct ((fst x =? d) && (snd x =? t)); cbn [length]; congruence.
    - destruct ((fst x =? d) && (snd x =? t)), ((fst y =? d) && (snd y =? t)); reflexivity.
    - congruence. }
  rewrite (F _ _ P). clear.
  induction ts as [ | x ts IH]; [cbn; lia | ].
  change (all_links (x :: ts)) with (map (fun d => (d, x)) (uses x) ++ all_links ts).
  rewrite filter_app, app_length, IH. cbn [count_occ].
  assert (G : length (filter (fun e : Z * Z => (fst e =? d) && (snd e =? t)) (map (fun d => (d, x)) (uses x)))
     = if Z.eq_dec x t then count (uses x) d else 0%nat).
  { induction (uses x) as [ | y l IHl]; cbn [map filter length count_occ fst snd].
    - now destruct (Z.eq_dec x t).
    - destruct (Z.eq_dec x t) as [-> | N].
      + rewrite Z.eqb_refl, andb_true_r. destruct (Z.eq_dec y d) as [-> | N].
        * rewrite Z.eqb_refl. cbn [length]. now rewrite IHl.
        * apply Z.eqb_neq in N. now rewrite N.
      + apply Z.eqb_neq in N. now rewrite N, andb_false_r. }
  rewrite G. destruct (Z.eq_dec x t) as [-> | N]; lia.
Qed.

Lemma remove_dv_ok p d : inv p ->
  exists p', remove_dv uses kept p d = Ok p' /\ dvars p' = erase d (dvars p) /\ inv p' /\
    terms p' = filter (fun t => negb (existsb (Z.eqb d) (uses t))) (terms p).
Proof.
  intro I. destruct I as (I1 & I2 & I3). unfold remove_dv.
  destruct (remove_terms_ok d (range d (links p)) p (conj I1 (conj I2 I3))) as (p1 & E & D & (J1 & J2 & J3) & T).
  - intros t Ht. unfold range in Ht. apply in_map_iff in Ht. destruct Ht as ([a b] & <- & Ht).
    apply filter_In in Ht. destruct Ht as (Ht & Ea). cbn [fst snd] in *. apply Z.eqb_eq in Ea. subst a.
    apply (Permutation_in _ I2) in Ht. now apply in_all_links in Ht.
  - intros t Ht. rewrite (range_count d t _ _ I2). apply (count_occ_In Z.eq_dec) in Ht. nia.
  - intro t. rewrite (range_count d t _ _ I2).
    destruct (in_dec Z.eq_dec t (terms p)) as [Hin | Hin].
    + rewrite Forall_forall in I3. destruct (I3 _ Hin) as [H | H]; [now left | right].
      rewrite (NoDup_count_occ Z.eq_dec) in H. specialize (H d). nia.
    + right. apply (count_occ_not_In Z.eq_dec) in Hin. rewrite Hin. lia.
  - rewrite E. cbn [obind]. eexists. split; [reflexivity | ]. cbn [dvars terms links].
    rewrite D. split; [reflexivity | ]. split; [ | exact T].
    split; [ | split; [exact J2 | exact J3]]. cbn [dvars].
    destruct (in_dec Z.eq_dec d (dvars p)) as [H | H].
    + assert (X := Permutation_NoDup (erase_perm _ _ H) I1). now inversion X.
    + now rewrite erase_none.
Qed.

Lemma link_all_ok t ds : forall p,
  (debug = true -> forall d, In d ds -> In d (dvars p)) ->
  exists p', link_all debug p t ds = (p', false) /\ dvars p' = dvars p /\ terms p' = terms p /\
    Permutation (links p') (map (fun d => (d, t)) ds ++ links p).
Proof.
  induction ds as [ | d ds IH]; intros p H; cbn [link_all map app].
  - exists p. auto.
  - assert (E : debug && negb (mem d (dvars p)) = false).
    { destruct debug; [ | reflexivity]. cbn [andb]. apply negb_false_iff, mem_in.
      apply H; [reflexivity | now left]. }
    rewrite E. destruct (IH (Prob (dvars p) (terms p) (insert d t (links p)))) as (p' & E' & D & T & P).
    { intros Hd x Hx. apply H; [exact Hd | now right]. }
    exists p'. split; [exact E' | ]. split; [exact D | ]. split; [exact T | ].
    etransitivity; [exact P | ]. cbn [links].
    etransitivity; [apply Permutation_app_head; apply insert_perm | ].
    symmetry. apply Permutation_middle.
Qed.

Lemma step_ok p o : inv p -> allowed uses kept debug (dvars p, terms p) o ->
  exists p' f, step uses kept debug p o = Ok (p', f) /\ inv p' /\
    does uses (dvars p, terms p) o (dvars p', terms p') f.
Proof.
  intros I Ha. destruct o as [d | t | t | d | ]; cbn [step allowed fst snd] in *.
  - unfold add_dv. destruct (mem d (dvars p)) eqn:E.
    + exists p, true. split; [reflexivity | ]. split; [exact I | ].
      constructor. now apply mem_in.
    + eexists _, false. split; [reflexivity | ]. apply mem_not in E.
      destruct I as (I1 & I2 & I3). split.
      * split; [ | split; assumption]. cbn [dvars].
        apply (Permutation_NoDup (l := d :: dvars p)); [ | constructor; assumption].
        apply Permutation_cons_append.
      * now constructor.
  - destruct Ha as (H1 & H2). unfold add_term.
    destruct (link_all_ok t (uses t) (Prob (dvars p) (terms p ++ [t]) (links p)) H2) as (p' & E & D & T & P).
    exists p', false. rewrite E. split; [reflexivity | ]. cbn [dvars terms links] in *.
    destruct I as (I1 & I2 & I3). split.
    + split; [rewrite D; exact I1 | ]. rewrite T. split.
      * etransitivity; [exact P | ]. unfold all_links in *. rewrite flat_map_app. cbn [flat_map].
        rewrite app_nil_r. etransitivity; [apply Permutation_app_comm | ].
        now apply Permutation_app_tail.
      * apply Forall_app. split; [exact I3 | ]. now constructor.
    + rewrite D, T. constructor.
  - destruct (remove_term_ok p t I Ha) as (p' & E & D & T & I'). rewrite E. cbn [obind].
    exists p', false. split; [reflexivity | ]. split; [exact I' | ]. rewrite D, T.
    constructor. apply erase_taken.
  - destruct (remove_dv_ok p d I) as (p' & E & D & I' & T). rewrite E. cbn [obind].
    exists p', false. split; [reflexivity | ]. split; [exact I' | ]. rewrite D, T.
    constructor. apply erase_taken.
  - exists empty, false. split; [reflexivity | ]. split.
    + split; [constructor | ]. split; constructor.
    + constructor.
Qed.

Lemma run_ok os : forall p, inv p -> allowed_history uses kept debug (dvars p, terms p) os ->
  exists p' fs, run uses kept debug p os = Ok (p', fs) /\ inv p' /\
    history uses (dvars p, terms p) os (dvars p', terms p') fs.
Proof.
  induction os as [ | o os IH]; intros p I Ha; cbn [run].
  - exists p, []. split; [reflexivity | ]. split; [exact I | constructor].
  - inversion Ha as [ | s o' os' H1 H2]; subst.
    destruct (step_ok p o I H1) as (p1 & f & E & I1 & D). rewrite E. cbn [obind].
    destruct (IH p1 I1 (H2 _ _ D)) as (p2 & fs & E2 & I2 & Hh). rewrite E2. cbn [obind].
    exists p2, (f :: fs). split; [reflexivity | ]. split; [exact I2 | ].
    econstructor; eassumption.
Qed.

Lemma get_errors_in p d out t : inv p ->
  In t (get_errors p d out) <-> In t out \/ (In t (terms p) /\ In d (uses t)).
Proof.
  intros (_ & P & _). unfold get_errors.
  assert (F : forall l out, In t (fold_left (fun s t => set_insert t s) l out) <-> In t out \/ In t l).
  { clear. induction l as [ | x l IH]; intro out; cbn [fold_left In]; [tauto | ].
    rewrite IH, set_insert_in. intuition congruence. }
  rewrite F, <- in_all_links. apply or_iff_compat_l. unfold range. rewrite in_map_iff. split.
  - intros ([a b] & <- & H). apply filter_In in H. destruct H as (H & E). cbn [fst snd] in *.
    apply Z.eqb_eq in E. subst. exact (Permutation_in _ P H).
  - intro H. exists (d, t). split; [reflexivity | ]. apply filter_In. cbn [fst].
    split; [exact (Permutation_in _ (Permutation_sym P) H) | apply Z.eqb_refl].
Qed.

End Problem.
