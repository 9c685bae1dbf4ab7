(** * Proofs about disjoint sets *)
From Coq Require Import List Arith Bool Lia Relations.
From Verif Require Import Base UfModel UfSpec.
Import ListNotations.
Local Open Scope nat_scope.

Definition dn : node := Node 0 0.
Definition par (s : sets) (i : nat) : nat := n_parent (nth i s dn).
Definition siz (s : sets) (i : nat) : nat := n_size (nth i s dn).
Definition total_of (n : nat) (f : nat -> bool) : nat := length (filter f (seq 0 n)).

Lemma put_length i x s : length (put i x s) = length s.
Proof. revert i. induction s as [ | y r IH ]; intros [ | i ]; cbn [put length]; [ reflexivity | reflexivity | reflexivity | rewrite IH; reflexivity ]. Qed.
Lemma nth_put i x s j : i < length s -> nth j (put i x s) dn = if j =? i then x else nth j s dn.
Proof.
  revert i j. induction s as [ | y r IH ]; intros i j L; cbn [length] in L; [ lia | ]. destruct i as [ | i ], j as [ | j ]; cbn [put nth Nat.eqb]; try reflexivity.
  apply IH. lia.
Qed.
Lemma nth_error_nth_dn s i : i < length s -> nth_error s i = Some (nth i s dn).
Proof. intros L. apply nth_error_nth'. exact L. Qed.
Lemma set_parent_length i p s : length (set_parent i p s) = length s.
Proof. unfold set_parent. destruct (nth_error s i); [ apply put_length | reflexivity ]. Qed.
Lemma set_size_length i p s : length (set_size i p s) = length s.
Proof. unfold set_size. destruct (nth_error s i); [ apply put_length | reflexivity ]. Qed.
Lemma par_set_parent i p s j : i < length s -> par (set_parent i p s) j = if j =? i then p else par s j.
Proof. intros L. unfold par, set_parent. rewrite nth_error_nth_dn, nth_put by exact L. destruct (j =? i); reflexivity. Qed.
Lemma siz_set_parent i p s j : i < length s -> siz (set_parent i p s) j = siz s j.
Proof. intros L. unfold siz, set_parent. rewrite nth_error_nth_dn, nth_put by exact L. destruct (Nat.eqb_spec j i) as [ -> | ]; reflexivity. Qed.
Lemma par_set_size i p s j : i < length s -> par (set_size i p s) j = par s j.
Proof. intros L. unfold par, set_size. rewrite nth_error_nth_dn, nth_put by exact L. destruct (Nat.eqb_spec j i) as [ -> | ]; reflexivity. Qed.
Lemma siz_set_size i p s j : i < length s -> siz (set_size i p s) j = if j =? i then p else siz s j.
Proof. intros L. unfold siz, set_size. rewrite nth_error_nth_dn, nth_put by exact L. destruct (j =? i); reflexivity. Qed.
Lemma at_node_ok s i : i < length s -> at_node s i = Ok (nth i s dn).
Proof. intros L. unfold at_node. rewrite nth_error_nth_dn by exact L. reflexivity. Qed.

Lemma filter_le {A} (f : A -> bool) l : length (filter f l) <= length l.
Proof. induction l as [ | a l IH ]; [ cbn; lia | ]. cbn. destruct (f a); cbn; lia. Qed.
Lemma total_le n f : total_of n f <= n.
Proof. unfold total_of. pose proof (filter_le f (seq 0 n)). rewrite seq_length in H. exact H. Qed.
Lemma total_ext n f g : (forall i, i < n -> f i = g i) -> total_of n f = total_of n g.
Proof. intros E. unfold total_of. f_equal. apply filter_ext_in. intros i H. apply in_seq in H. apply E. lia. Qed.
Lemma total_or n f g : (forall i, i < n -> f i && g i = false) -> total_of n (fun i => f i || g i) = total_of n f + total_of n g.
Proof.
  unfold total_of. intros E.
  assert (H : forall l, (forall i, In i l -> i < n) -> length (filter (fun i => f i || g i) l) = length (filter f l) + length (filter g l)).
  { induction l as [ | a l IH ]; intros B; [ reflexivity | ]. cbn [filter]. specialize (IH (fun i H => B i (or_intror H))).
    specialize (E a (B a (or_introl eq_refl))). destruct (f a), (g a); cbn [orb andb length] in *; try discriminate; rewrite ?IH; lia. }
  apply H. intros i Hi. apply in_seq in Hi. lia.
Qed.

Record good (n : nat) (rep : nat -> nat) (s : sets) : Prop := {
  g_len : length s = n;
  g_rep : forall i, i < n -> rep i < n;
  g_idem : forall i, i < n -> rep (rep i) = rep i;
  g_par : forall i, i < n -> par s i < n;
  g_same : forall i, i < n -> rep (par s i) = rep i;
  g_root : forall i, i < n -> (par s i = i <-> rep i = i);
  g_grow : forall i, i < n -> par s i <> i -> siz s i < siz s (par s i);
  g_bound : forall i, i < n -> 1 <= siz s i <= n;
  g_count : forall i, i < n -> rep i = i -> siz s i = total_of n (fun j => rep j =? i) }.

Lemma representative_good n rep fuel : forall s i, good n rep s -> i < n -> n < fuel + siz s i ->
  exists s', representative fuel s i = Ok (rep i, s') /\ good n rep s' /\ (forall j, siz s' j = siz s j) /\ (rep i = i \/ siz s i < siz s (rep i)).
Proof.
  induction fuel as [ | f IH ]; intros s i G L F.
  - pose proof (g_bound _ _ _ G i L). lia.
  - cbn [representative]. rewrite at_node_ok by (rewrite (g_len _ _ _ G); exact L). cbn [obind]. fold (par s i).
    destruct (Nat.eqb_spec (par s i) i) as [ E | N ].
    + pose proof (proj1 (g_root _ _ _ G i L) E) as R. exists s. split; [ rewrite R; reflexivity | ]. split; [ exact G | ]. split; [ reflexivity | left; exact R ].
    + pose proof (g_par _ _ _ G i L) as LP. pose proof (g_grow _ _ _ G i L N) as GR.
      destruct (IH s (par s i) G LP ltac:(lia)) as (s' & E & G' & SZ & UP). rewrite E. cbn [obind]. rewrite (g_same _ _ _ G i L) in *.
      pose proof (g_rep _ _ _ G i L) as LR. assert (L' : i < length s') by (rewrite (g_len _ _ _ G'); exact L).
      assert (LT : siz s i < siz s (rep i)) by (destruct UP as [ -> | ]; [ exact GR | lia ]).
      assert (NR : rep i <> i) by (intros X; rewrite X in LT; lia).
      exists (set_parent i (rep i) s'). split; [ reflexivity | ]. split; [ | split ].
      * constructor.
        -- rewrite set_parent_length. apply (g_len _ _ _ G').
        -- apply (g_rep _ _ _ G').
        -- apply (g_idem _ _ _ G').
        -- intros j Hj. rewrite par_set_parent by exact L'. destruct (Nat.eqb_spec j i) as [ -> | ]; [ exact LR | apply (g_par _ _ _ G'); exact Hj ].
        -- intros j Hj. rewrite par_set_parent by exact L'. destruct (Nat.eqb_spec j i) as [ -> | ]; [ apply (g_idem _ _ _ G i L) | apply (g_same _ _ _ G'); exact Hj ].
        -- intros j Hj. rewrite par_set_parent by exact L'. destruct (Nat.eqb_spec j i) as [ -> | ]; [ tauto | apply (g_root _ _ _ G'); exact Hj ].
        -- intros j Hj. rewrite par_set_parent by exact L'. rewrite !siz_set_parent by exact L'.
           destruct (Nat.eqb_spec j i) as [ -> | ]; [ intros _; rewrite !SZ; exact LT | apply (g_grow _ _ _ G'); exact Hj ].
        -- intros j Hj. rewrite siz_set_parent by exact L'. apply (g_bound _ _ _ G'); exact Hj.
        -- intros j Hj. rewrite siz_set_parent by exact L'. apply (g_count _ _ _ G'); exact Hj.
      * intros j. rewrite siz_set_parent by exact L'. apply SZ.
      * right. exact LT.
Qed.
Lemma get_representative_good n rep s i : good n rep s -> i < n ->
  exists s', get_representative s i = Ok (rep i, s') /\ good n rep s' /\ forall j, siz s' j = siz s j.
Proof.
  intros G L. unfold get_representative. pose proof (g_bound _ _ _ G i L). pose proof (g_len _ _ _ G).
  destruct (representative_good n rep (S (length s)) s i G L ltac:(lia)) as (s' & A & B & C & _). exists s'. split; [ exact A | split; [ exact B | exact C ] ].
Qed.

(** Putting the set with root [l] under the root [w]. *)
Definition joined (rep : nat -> nat) (l w : nat) (i : nat) : nat := if rep i =? l then w else rep i.
Lemma join_good n rep s l w : good n rep s -> l < n -> w < n -> rep l = l -> rep w = w -> l <> w ->
  good n (joined rep l w) (set_size w (siz s w + siz s l) (set_parent l w s)).
Proof.
  intros G Ll Lw Rl Rw NE. pose proof (g_len _ _ _ G) as LEN.
  assert (L1 : l < length s) by lia. assert (L2 : w < length (set_parent l w s)) by (rewrite set_parent_length; lia).
  assert (PAR : forall j, par (set_size w (siz s w + siz s l) (set_parent l w s)) j = if j =? l then w else par s j).
  { intros j. rewrite par_set_size, par_set_parent by assumption. reflexivity. }
  assert (SIZ : forall j, siz (set_size w (siz s w + siz s l) (set_parent l w s)) j = if j =? w then siz s w + siz s l else siz s j).
  { intros j. rewrite siz_set_size, siz_set_parent by assumption. reflexivity. }
  assert (CW := g_count _ _ _ G w Lw Rw). assert (CL := g_count _ _ _ G l Ll Rl).
  assert (CNT : total_of n (fun j => joined rep l w j =? w) = siz s w + siz s l).
  { rewrite (total_ext n _ (fun j => (rep j =? w) || (rep j =? l))).
    - rewrite total_or; [ lia | ]. intros i _. destruct (Nat.eqb_spec (rep i) w), (Nat.eqb_spec (rep i) l); cbn; congruence.
    - intros i _. unfold joined. destruct (Nat.eqb_spec (rep i) l); [ rewrite Nat.eqb_refl, orb_true_r; reflexivity | rewrite orb_false_r; reflexivity ]. }
  pose proof (g_bound _ _ _ G w Lw) as BW. pose proof (g_bound _ _ _ G l Ll) as BL.
  constructor.
  - rewrite set_size_length, set_parent_length. exact LEN.
  - intros i Hi. unfold joined. destruct (rep i =? l); [ exact Lw | apply (g_rep _ _ _ G); exact Hi ].
  - intros i Hi. unfold joined. destruct (Nat.eqb_spec (rep i) l) as [ E | N ].
    + rewrite Rw. destruct (Nat.eqb_spec w l); congruence.
    + rewrite (g_idem _ _ _ G) by exact Hi. destruct (Nat.eqb_spec (rep i) l); congruence.
  - intros i Hi. rewrite PAR. destruct (i =? l); [ exact Lw | apply (g_par _ _ _ G); exact Hi ].
  - intros i Hi. rewrite PAR. unfold joined. destruct (Nat.eqb_spec i l) as [ -> | N ].
    + rewrite Rw, Rl, Nat.eqb_refl. destruct (Nat.eqb_spec w l); congruence.
    + rewrite (g_same _ _ _ G) by exact Hi. reflexivity.
  - intros i Hi. rewrite PAR. unfold joined. destruct (Nat.eqb_spec i l) as [ -> | N ].
    + rewrite Rl, Nat.eqb_refl. tauto.
    + rewrite (g_root _ _ _ G) by exact Hi. destruct (Nat.eqb_spec (rep i) l) as [ E | ]; [ | tauto ]. split; [ congruence | ]. intros <-. congruence.
  - intros i Hi. rewrite PAR, !SIZ. destruct (Nat.eqb_spec i l) as [ -> | N ].
    + intros _. rewrite Nat.eqb_refl. destruct (Nat.eqb_spec l w); [ congruence | lia ].
    + intros X. pose proof (g_grow _ _ _ G i Hi X) as GR. destruct (Nat.eqb_spec i w) as [ -> | ].
      * exfalso. apply X. apply (g_root _ _ _ G w Lw). exact Rw.
      * destruct (Nat.eqb_spec (par s i) w) as [ E | ]; [ rewrite E in GR; lia | exact GR ].
  - intros i Hi. rewrite SIZ. destruct (Nat.eqb_spec i w) as [ -> | ]; [ | apply (g_bound _ _ _ G); exact Hi ].
    split; [ lia | ]. rewrite <- CNT. apply total_le.
  - intros i Hi R. rewrite SIZ. destruct (Nat.eqb_spec i w) as [ -> | N ]; [ symmetry; exact CNT | ].
    unfold joined in R. destruct (Nat.eqb_spec (rep i) l) as [ E | NE2 ]; [ congruence | ].
    rewrite (g_count _ _ _ G i Hi R). apply total_ext. intros j Hj. unfold joined. destruct (Nat.eqb_spec (rep j) l) as [ E | ]; [ | reflexivity ].
    rewrite E. destruct (Nat.eqb_spec l i), (Nat.eqb_spec w i); congruence.
Qed.

Lemma connect_good n rep s a b : good n rep s -> a < n -> b < n ->
  exists r s' rep', connect_nodes s a b = Ok (r, s') /\ good n rep' s' /\ rep' a = r /\ rep' b = r /\
    ((rep a = rep b /\ (forall i, rep' i = rep i)) \/
     (rep a <> rep b /\ exists l w, ((l = rep a /\ w = rep b) \/ (l = rep b /\ w = rep a)) /\ forall i, rep' i = joined rep l w i)).
Proof.
  intros G La Lb. unfold connect_nodes.
  destruct (get_representative_good n rep s a G La) as (s1 & -> & G1 & S1). cbn [obind].
  destruct (get_representative_good n rep s1 b G1 Lb) as (s2 & -> & G2 & S2). cbn [obind].
  destruct (Nat.eqb_spec (rep a) (rep b)) as [ E | NE ].
  - exists (rep a), s2, rep. split; [ reflexivity | ]. split; [ exact G2 | ]. split; [ reflexivity | ]. split; [ congruence | ]. left. split; [ exact E | reflexivity ].
  - pose proof (g_rep _ _ _ G a La) as LA. pose proof (g_rep _ _ _ G b Lb) as LB. pose proof (g_len _ _ _ G2) as LEN.
    rewrite !at_node_ok by lia. cbn [obind]. cbv zeta. fold (siz s2 (rep a)) (siz s2 (rep b)).
    pose proof (g_idem _ _ _ G a La) as IA. pose proof (g_idem _ _ _ G b Lb) as IB.
    destruct (Nat.ltb_spec (siz s2 (rep b)) (siz s2 (rep a))).
    + exists (rep a), (set_size (rep a) (siz s2 (rep a) + siz s2 (rep b)) (set_parent (rep b) (rep a) s2)), (joined rep (rep b) (rep a)).
      split; [ reflexivity | ]. split; [ apply join_good; (assumption || congruence) | ].
      split; [ unfold joined; destruct (Nat.eqb_spec (rep a) (rep b)); congruence | ].
      split; [ unfold joined; rewrite Nat.eqb_refl; reflexivity | ]. right. split; [ exact NE | ]. exists (rep b), (rep a). split; [ right; split; reflexivity | reflexivity ].
    + exists (rep b), (set_size (rep b) (siz s2 (rep b) + siz s2 (rep a)) (set_parent (rep a) (rep b) s2)), (joined rep (rep a) (rep b)).
      split; [ reflexivity | ]. split; [ apply join_good; (assumption || congruence) | ].
      split; [ unfold joined; rewrite Nat.eqb_refl; reflexivity | ].
      split; [ unfold joined; destruct (Nat.eqb_spec (rep b) (rep a)); congruence | ]. right. split; [ exact NE | ]. exists (rep a), (rep b). split; [ left; split; reflexivity | reflexivity ].
Qed.

Lemma make_good n : good n (fun i => i) (make n).
Proof.
  assert (N : forall i, i < n -> nth i (make n) dn = Node i 1).
  { intros i H. unfold make. rewrite (nth_indep _ dn (Node 0 1)) by (rewrite map_length, seq_length; exact H).
    rewrite (map_nth (fun i => Node i 1) (seq 0 n) 0 i), seq_nth by exact H. reflexivity. }
  constructor; try (intros i Hi; unfold par, siz; rewrite ?N by exact Hi; cbn [n_parent n_size]).
  - unfold make. rewrite map_length, seq_length. reflexivity.
  - exact Hi.
  - reflexivity.
  - exact Hi.
  - reflexivity.
  - tauto.
  - intros X. congruence.
  - lia.
  - intros _. clear N. unfold total_of. revert Hi.
    assert (H : forall k n, i < k + n -> length (filter (fun j => j =? i) (seq k n)) = if k <=? i then 1 else 0).
    { intros k m. revert k. induction m as [ | m IH ]; intros k B; cbn [seq filter].
      - destruct (Nat.leb_spec k i); [ lia | reflexivity ].
      - destruct (Nat.eqb_spec k i) as [ -> | NE ]; cbn [length]; rewrite IH by lia.
        + destruct (Nat.leb_spec (S i) i); [ lia | ]. destruct (Nat.leb_spec i i); [ reflexivity | lia ].
        + destruct (Nat.leb_spec (S k) i), (Nat.leb_spec k i); try lia; reflexivity. }
    intros Hi. rewrite H by lia. reflexivity.
Qed.

Lemma connected_mono cs c a b : connected cs a b -> connected (cs ++ [c]) a b.
Proof.
  intros H. induction H as [ x y L | | | ].
  - apply rst_step. unfold linked in *. apply in_or_app. left. exact L.
  - apply rst_refl.
  - apply rst_sym. assumption.
  - eapply rst_trans; eassumption.
Qed.
Definition follows (cs : list call) (n : nat) (rep : nat -> nat) : Prop :=
  (forall a b, In (Connect a b) cs -> rep a = rep b) /\ (forall i, i < n -> connected cs i (rep i)).
Lemma follows_iff cs n rep i j : follows cs n rep -> i < n -> j < n -> (rep i = rep j <-> connected cs i j).
Proof.
  intros (A & B) Hi Hj. split.
  - intros E. eapply rst_trans; [ apply B; exact Hi | ]. rewrite E. apply rst_sym, B. exact Hj.
  - intros H. clear Hi Hj. induction H as [ x y L | | | ]; [ apply A; exact L | reflexivity | congruence | congruence ].
Qed.
Lemma perform_all_app s cs cs' : perform_all s (cs ++ cs') = (do s' <- perform_all s cs; perform_all s' cs').
Proof.
  revert s. induction cs as [ | c cs IH ]; intros s; [ reflexivity | ]. cbn [app perform_all]. destruct (perform s c) as [ (v & s') | | | ]; cbn [obind]; [ apply IH | reflexivity | reflexivity | reflexivity ].
Qed.
Lemma perform_good n rep s cs c : good n rep s -> follows cs n rep -> inside n c ->
  exists v s' rep', perform s c = Ok (v, s') /\ good n rep' s' /\ follows (cs ++ [c]) n rep' /\
    (forall a b, c = Connect a b -> rep' a = v /\ rep' b = v) /\
    ((forall a b, c <> Connect a b) -> rep' = rep).
Proof.
  intros G FO IN. destruct c as [ i | i | a b ]; cbn [inside] in IN; cbn [perform].
  - destruct (get_representative_good n rep s i G IN) as (s' & E & G' & _). exists (rep i), s', rep. split; [ exact E | ]. split; [ exact G' | ].
    split; [ | split; [ discriminate | reflexivity ] ]. destruct FO as (A & B). split.
    + intros a b H. apply in_app_or in H. destruct H as [ H | [ H | [] ] ]; [ apply A; exact H | discriminate ].
    + intros j Hj. apply connected_mono, B. exact Hj.
  - destruct (get_representative_good n rep s i G IN) as (s' & E & G' & _). exists (siz s' (rep i)), s', rep. split.
    { unfold get_set_size. rewrite E. cbn [obind]. rewrite at_node_ok by (rewrite (g_len _ _ _ G'); apply (g_rep _ _ _ G); exact IN). reflexivity. }
    split; [ exact G' | ].
    split; [ | split; [ discriminate | reflexivity ] ]. destruct FO as (A & B). split.
    + intros a b H. apply in_app_or in H. destruct H as [ H | [ H | [] ] ]; [ apply A; exact H | discriminate ].
    + intros j Hj. apply connected_mono, B. exact Hj.
  - destruct IN as (La & Lb). destruct (connect_good n rep s a b G La Lb) as (r & s' & rep' & E & G' & RA & RB & C). exists r, s', rep'.
    split; [ exact E | ]. split; [ exact G' | ]. split; [ | split; [ intros x y X; injection X as <- <-; split; assumption | intros X; exfalso; exact (X a b eq_refl) ] ].
    destruct FO as (A & B). split.
    + intros x y H. apply in_app_or in H. destruct H as [ H | [ H | [] ] ].
      * specialize (A x y H). destruct C as [ (_ & C) | (_ & l & w & _ & C) ]; rewrite !C; [ exact A | unfold joined; rewrite A; reflexivity ].
      * injection H as <- <-. congruence.
    + assert (AB : connected (cs ++ [Connect a b]) (rep a) (rep b)).
      { eapply rst_trans; [ apply rst_sym, connected_mono, B; exact La | ]. eapply rst_trans; [ | apply connected_mono, B; exact Lb ].
        apply rst_step. unfold linked. apply in_or_app. right. left. reflexivity. }
      intros i Hi. destruct C as [ (_ & C) | (_ & l & w & LW & C) ]; rewrite C; [ apply connected_mono, B; exact Hi | ].
      unfold joined. destruct (Nat.eqb_spec (rep i) l) as [ EQ | ]; [ | apply connected_mono, B; exact Hi ].
      eapply rst_trans; [ apply connected_mono, B; exact Hi | ]. rewrite EQ. destruct LW as [ (-> & ->) | (-> & ->) ]; [ exact AB | apply rst_sym; exact AB ].
Qed.
Lemma perform_all_good n : forall cs, Forall (inside n) cs ->
  exists s rep, perform_all (make n) cs = Ok s /\ good n rep s /\ follows cs n rep.
Proof.
  induction cs as [ | c cs IH ] using rev_ind; intros IN.
  - exists (make n), (fun i => i). split; [ reflexivity | ]. split; [ apply make_good | ]. split; [ intros a b [] | intros; apply rst_refl ].
  - apply Forall_app in IN. destruct IN as (IN & C). inversion C as [ | ? ? C1 _ ]; subst.
    destruct (IH IN) as (s & rep & E & G & FO). destruct (perform_good n rep s cs c G FO C1) as (v & s' & rep' & E' & G' & FO' & _).
    exists s', rep'. split; [ | split; assumption ]. rewrite perform_all_app, E. cbn [obind perform_all]. rewrite E'. reflexivity.
Qed.
