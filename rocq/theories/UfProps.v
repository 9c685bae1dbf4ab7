(** * C78: the disjoint sets of the tag detector *)
From Coq Require Import List Arith Bool Lia Relations.
From Verif Require Import Base UfModel UfSpec UfProofs.
Import ListNotations.
Local Open Scope nat_scope.

(** After any sequence of calls with ids in range: every call succeeds, two ids
    have the same representative exactly when connect calls link them, and the
    size of a set is the number of ids linked. *)
Theorem C78_sets : forall n cs, Forall (inside n) cs ->
  exists s, perform_all (make n) cs = Ok s /\
    (forall i, i < n -> exists r s', get_representative s i = Ok (r, s') /\ r < n /\ connected cs i r) /\
    (forall i j ri rj si sj, i < n -> j < n -> get_representative s i = Ok (ri, si) -> get_representative s j = Ok (rj, sj) ->
       (ri = rj <-> connected cs i j)) /\
    (forall i, i < n -> exists l s', class_of cs n i l /\ get_set_size s i = Ok (length l, s') /\ length l <= n).
Proof.
  intros n cs IN. destruct (perform_all_good n cs IN) as (s & rep & E & G & FO). exists s. split; [ exact E | ]. split; [ | split ].
  - intros i Hi. destruct (get_representative_good n rep s i G Hi) as (s' & R & _). exists (rep i), s'. split; [ exact R | ].
    split; [ apply (g_rep _ _ _ G); exact Hi | apply FO; exact Hi ].
  - intros i j ri rj si sj Hi Hj Ei Ej.
    destruct (get_representative_good n rep s i G Hi) as (s1 & R1 & _). destruct (get_representative_good n rep s j G Hj) as (s2 & R2 & _).
    assert (ri = rep i) by congruence. assert (rj = rep j) by congruence. subst ri rj. apply (follows_iff cs n rep); assumption.
  - intros i Hi. destruct (get_representative_good n rep s i G Hi) as (s' & R & G' & _). pose proof (g_rep _ _ _ G i Hi) as LR.
    exists (filter (fun j => rep j =? rep i) (seq 0 n)), s'. split; [ | split ].
    + split; [ apply NoDup_filter, seq_NoDup | ]. intros j. rewrite filter_In, in_seq, Nat.eqb_eq. split.
      * intros ((_ & Hj) & E2). split; [ lia | ]. apply (follows_iff cs n rep i j FO Hi); [ lia | congruence ].
      * intros (Hj & C). split; [ lia | ]. symmetry. apply (follows_iff cs n rep i j FO Hi Hj). exact C.
    + unfold get_set_size. rewrite R. cbn [obind]. rewrite at_node_ok by (rewrite (g_len _ _ _ G'); exact LR). cbn [obind].
      fold (siz s' (rep i)). rewrite (g_count _ _ _ G' (rep i) LR (g_idem _ _ _ G i Hi)). reflexivity.
    + apply total_le.
Qed.
Print Assumptions C78_sets.

(** What connect returns is the representative of both from then on, and asking
    for representatives and sizes changes no representative. *)
Theorem C78_stable : forall n cs a b qs i, Forall (inside n) cs -> a < n -> b < n -> i < n ->
  Forall (inside n) qs -> (forall x y, ~ In (Connect x y) qs) ->
  exists s r s1 s2 ri s3 s4, perform_all (make n) cs = Ok s /\ connect_nodes s a b = Ok (r, s1) /\ perform_all s1 qs = Ok s2 /\
    (exists s', get_representative s2 a = Ok (r, s')) /\ (exists s', get_representative s2 b = Ok (r, s')) /\
    get_representative s1 i = Ok (ri, s3) /\ get_representative s2 i = Ok (ri, s4).
Proof.
  intros n cs a b qs i IN La Lb Hi IQ NQ. destruct (perform_all_good n cs IN) as (s & rep & E & G & FO).
  destruct (perform_good n rep s cs (Connect a b) G FO (conj La Lb)) as (r & s1 & rep1 & E1 & G1 & FO1 & V & _). destruct (V a b eq_refl) as (RA & RB).
  assert (RUN : forall qs cs' s1, good n rep1 s1 -> follows cs' n rep1 -> Forall (inside n) qs -> (forall x y, ~ In (Connect x y) qs) -> exists s2, perform_all s1 qs = Ok s2 /\ good n rep1 s2).
  { clear. induction qs as [ | q qs IH ]; intros cs' s1 G FO IQ NQ; [ exists s1; split; [ reflexivity | exact G ] | ].
    inversion IQ as [ | ? ? I1 I2 ]; subst. destruct (perform_good n rep1 s1 cs' q G FO I1) as (v & s' & rep' & E & G' & FO' & _ & SAME).
    assert (rep' = rep1) as -> by (apply SAME; intros x y X; apply (NQ x y); left; exact X).
    destruct (IH _ s' G' FO' I2) as (s2 & E2 & G2); [ intros x y H; apply (NQ x y); right; exact H | ].
    exists s2. split; [ cbn [perform_all]; rewrite E; cbn [obind]; exact E2 | exact G2 ]. }
  destruct (RUN qs _ s1 G1 FO1 IQ NQ) as (s2 & E2 & G2).
  destruct (get_representative_good n rep1 s1 i G1 Hi) as (s3 & R3 & _). destruct (get_representative_good n rep1 s2 i G2 Hi) as (s4 & R4 & _).
  destruct (get_representative_good n rep1 s2 a G2 La) as (s5 & R5 & _). destruct (get_representative_good n rep1 s2 b G2 Lb) as (s6 & R6 & _).
  exists s, r, s1, s2, (rep1 i), s3, s4. split; [ exact E | ]. split; [ exact E1 | ]. split; [ exact E2 | ].
  split; [ exists s5; rewrite R5, RA; reflexivity | ]. split; [ exists s6; rewrite R6, RB; reflexivity | ]. split; assumption.
Qed.
Print Assumptions C78_stable.

(** Ids outside the structure are not checked. *)
Theorem C78_outside : forall s i, length s <= i -> get_representative s i = UB /\ get_set_size s i = UB /\ forall b, connect_nodes s i b = UB.
Proof.
  intros s i H. assert (E : get_representative s i = UB).
  { unfold get_representative. cbn [representative]. unfold at_node. rewrite (proj2 (nth_error_None s i) H). reflexivity. }
  split; [ exact E | ]. unfold get_set_size, connect_nodes. rewrite E. split; [ reflexivity | intros; reflexivity ].
Qed.
Print Assumptions C78_outside.

Example C78_ex : let cs := [Connect 0 1; Connect 2 3; Find 0; Connect 3 0; Size 4] in
  Forall (inside 5) cs /\ connected cs 1 2 /\ ~ connected cs 1 4 /\
  exists s, perform_all (make 5) cs = Ok s /\ (exists s', get_set_size s 2 = Ok (4, s')) /\ (exists s', get_set_size s 4 = Ok (1, s')).
Proof.
  cbv zeta.
  assert (IN : Forall (inside 5) [Connect 0 1; Connect 2 3; Find 0; Connect 3 0; Size 4]) by (repeat constructor; cbn; lia).
  destruct (C78_sets 5 _ IN) as (s & E & _ & SAME & _). assert (E2 := E). vm_compute in E2. injection E2 as <-.
  split; [ exact IN | ].
  split; [ eapply (SAME 1 2); [ lia | lia | vm_compute; reflexivity | vm_compute; reflexivity | reflexivity ] | ].
  split; [ intros C; eapply (SAME 1 4) in C; [ | lia | lia | vm_compute; reflexivity | vm_compute; reflexivity ]; discriminate | ].
  eexists. split; [ exact E | ]. split; eexists; vm_compute; reflexivity.
Qed.
