(** * Proofs about grouping pixels: merging groups and collecting them *)
From Coq Require Import Reals List Arith ZArith Bool Lia Lra Relations Permutation Sorted.
From Verif Require Import Base LutModel LutProofs QsModel QsProofs GfModel GfSpec GfProofs UfModel UfProofs LfModel EcModel EcSpec EcProofs.
Import ListNotations.
Local Open Scope R_scope.

Lemma get_set_size_good n rep s i : good n rep s -> (i < n)%nat ->
  exists s', get_set_size s i = Ok (total_of n (fun j => rep j =? rep i)%nat, s') /\ good n rep s'.
Proof.
  intros G L. destruct (get_representative_good n rep s i G L) as (s' & E & G' & _). exists s'. split; [ | exact G' ].
  unfold get_set_size. rewrite E. cbn [obind]. pose proof (g_rep _ _ _ G i L) as Lr. rewrite at_node_ok by (rewrite (g_len _ _ _ G'); exact Lr). cbn [obind].
  fold (siz s' (rep i)). rewrite (g_count _ _ _ G' (rep i) Lr (g_idem _ _ _ G i L)). reflexivity.
Qed.
Lemma total_incl n f g : (forall i, (i < n)%nat -> f i = true -> g i = true) -> (total_of n f <= total_of n g)%nat.
Proof.
  intros H. unfold total_of. assert (K : forall l, (forall i, In i l -> (i < n)%nat) -> (length (filter f l) <= length (filter g l))%nat).
  { induction l as [ | a l IH ]; intros B; [ reflexivity | ]. specialize (IH (fun i I => B i (or_intror I))). cbn [filter].
    pose proof (H a (B a (or_introl eq_refl))) as Ha. destruct (f a); [ rewrite Ha by reflexivity; cbn [length]; lia | destruct (g a); cbn [length]; lia ]. }
  apply K. intros i I. apply in_seq in I. lia.
Qed.
Lemma total_pos n f i : (i < n)%nat -> f i = true -> (1 <= total_of n f)%nat.
Proof.
  intros L F. unfold total_of. assert (I : In i (filter f (seq 0 n))) by (apply filter_In; split; [ apply in_seq; lia | exact F ]).
  destruct (filter f (seq 0 n)); [ contradiction | cbn; lia ].
Qed.
Lemma angle_any lo t : angle_in lo (lo + 2 * PI) t.
Proof.
  unfold angle_in. destruct pi_small as [P1 P2]. pose proof (archimed ((lo - t) / (2 * PI))) as [A B].
  set (k := up ((lo - t) / (2 * PI))) in *. exists k.
  assert (E : lo - t = (lo - t) / (2 * PI) * (2 * PI)) by (field; lra). split; nra.
Qed.
Lemma angle_mono lo hi lo' hi' t : lo' <= lo -> hi <= hi' -> angle_in lo hi t -> angle_in lo' hi' t.
Proof. intros A B (k & K). exists k. lra. Qed.
Lemma angle_shift lo hi t j : angle_in lo hi t -> angle_in (lo + 2 * PI * IZR j) (hi + 2 * PI * IZR j) t.
Proof. intros (k & K). exists (k + j)%Z. rewrite plus_IZR. lra. Qed.

Section Merge.
Variable n : nat.
Variables th mg : nat -> R.
Definition strong (i : nat) : Prop := 4 / 1000 <= mg i.
Definition joins (es : list edge) (a b : nat) : Prop := exists c, In (Edge c a b) es.
Definition group_size (rep : nat -> nat) (i : nat) : nat := total_of n (fun j => rep j =? rep i)%nat.
Record grouped (es : list edge) (rep : nat -> nat) (uf : sets) (r : ranges) : Prop := {
  m_good : good n rep uf;
  m_l1 : length (tmin r) = n; m_l2 : length (tmax r) = n; m_l3 : length (mmin r) = n; m_l4 : length (mmax r) = n;
  m_angle : forall i, (i < n)%nat -> strong i -> angle_in (nth (rep i) (tmin r) 0) (nth (rep i) (tmax r) 0) (th i);
  m_width : forall i, (i < n)%nat -> strong i -> 0 <= nth (rep i) (tmax r) 0 - nth (rep i) (tmin r) 0 <= 2 * PI;
  m_mag : forall i, (i < n)%nat -> strong i -> nth (rep i) (mmin r) 0 <= mg i <= nth (rep i) (mmax r) 0;
  m_att : forall i, (i < n)%nat -> strong i -> exists a b, (a < n)%nat /\ (b < n)%nat /\ strong a /\ strong b /\ rep a = rep i /\ rep b = rep i /\
            nth (rep i) (mmin r) 0 = mg a /\ nth (rep i) (mmax r) 0 = mg b;
  m_link : forall i, (i < n)%nat -> clos_refl_sym_trans nat (joins es) i (rep i);
  m_frag : (forall i, (i < n)%nat -> strong i -> mg i <= 80) -> forall a b, joins es a b -> rep a = rep b \/ (16 <= group_size rep a + group_size rep b)%nat }.

Lemma link_more es e a b : clos_refl_sym_trans nat (joins es) a b -> clos_refl_sym_trans nat (joins (es ++ [e])) a b.
Proof.
  induction 1 as [ x y (c & H) | | | ]; [ apply rst_step; exists c; apply in_or_app; left; exact H | apply rst_refl | apply rst_sym; assumption | eapply rst_trans; eassumption ].
Qed.
Lemma coarser_size rep rep' i : (forall x y, (x < n)%nat -> (y < n)%nat -> rep x = rep y -> rep' x = rep' y) -> (i < n)%nat -> (group_size rep i <= group_size rep' i)%nat.
Proof. intros H L. apply total_incl. intros j J E. apply Nat.eqb_eq in E. apply Nat.eqb_eq. apply H; assumption. Qed.

Lemma merge_edge_ok es rep uf r e : grouped es rep uf r -> (pixel_a e < n)%nat -> (pixel_b e < n)%nat -> strong (pixel_a e) -> strong (pixel_b e) ->
  (forall a b, joins es a b -> (a < n)%nat /\ (b < n)%nat) ->
  exists uf' r' rep', merge_edge uf r e = Ok (uf', r') /\ grouped (es ++ [e]) rep' uf' r' /\
    ((rep' = rep /\ r' = r) \/
     (rep (pixel_a e) <> rep (pixel_b e) /\ rep' (pixel_a e) = rep' (pixel_b e) /\
      let k := rep' (pixel_a e) in let ka := rep (pixel_a e) in let kb := rep (pixel_b e) in let z := INR (group_size rep' (pixel_a e)) in
      nth k (tmax r') 0 - nth k (tmin r') 0 <= Rmin (nth ka (tmax r) 0 - nth ka (tmin r) 0) (nth kb (tmax r) 0 - nth kb (tmin r) 0) + 100 / z /\
      nth k (mmax r') 0 - nth k (mmin r') 0 <= Rmin (nth ka (mmax r) 0 - nth ka (mmin r) 0) (nth kb (mmax r) 0 - nth kb (mmin r) 0) + 1200 / z)).
Proof.
  intros [G L1 L2 L3 L4 AN WI MA AT LK FR] La Lb Sa Sb IN. destruct e as [c a b]. cbn [pixel_a pixel_b] in *. unfold merge_edge. cbn [pixel_a pixel_b].
  destruct (get_representative_good n rep uf a G La) as (u1 & -> & G1 & _). cbn [obind].
  destruct (get_representative_good n rep u1 b G1 Lb) as (u2 & -> & G2 & _). cbn [obind].
  pose proof (g_rep _ _ _ G a La) as Ra. pose proof (g_rep _ _ _ G b Lb) as Rb.
  pose proof (g_idem _ _ _ G a La) as Ia. pose proof (g_idem _ _ _ G b Lb) as Ib.
  assert (SAME : forall u, good n rep u -> (rep a = rep b \/ ((forall i, (i < n)%nat -> strong i -> mg i <= 80) -> (16 <= group_size rep a + group_size rep b)%nat)) -> grouped (es ++ [Edge c a b]) rep u r).
  { intros u Gu D. constructor; try assumption.
    - intros i Hi. apply link_more. apply LK. exact Hi.
    - intros T x y (c' & H). apply in_app_or in H. destruct H as [H | [H | []]]; [ apply FR; [ exact T | exists c'; exact H ] | ].
      injection H as _ <- <-. destruct D as [D | D]; [ left; exact D | right; apply D; exact T ]. }
  destruct (Nat.eqb_spec (rep a) (rep b)) as [EQ | NE].
  { exists u2, r, rep. split; [ reflexivity | ]. split; [ apply SAME; [ exact G2 | left; exact EQ ] | left; split; reflexivity ]. }
  destruct (get_set_size_good n rep u2 (rep a) G2 Ra) as (u3 & -> & G3). cbn [obind].
  destruct (get_set_size_good n rep u3 (rep b) G3 Rb) as (u4 & -> & G4). cbn [obind].
  rewrite Ia, Ib. fold (group_size rep a) (group_size rep b).
  rewrite !read_ok by (rewrite ?L1, ?L2, ?L3, ?L4; assumption). cbn [obind].
  cbv zeta. cbn [obind].
  destruct (AT a La Sa) as (a1 & a2 & A1 & A2 & A3 & A4 & A5 & A6 & A7 & A8). destruct (AT b Lb Sb) as (b1 & b2 & B1 & B2 & B3 & B4 & B5 & B6 & B7 & B8).
  pose proof (WI a La Sa) as Wa. pose proof (WI b Lb Sb) as Wb. pose proof (MA a La Sa) as Ma. pose proof (MA b Lb Sb) as Mb.
  set (tna := nth (rep a) (tmin r) 0) in *. set (txa := nth (rep a) (tmax r) 0) in *. set (tnb := nth (rep b) (tmin r) 0) in *. set (txb := nth (rep b) (tmax r) 0) in *.
  set (mna := nth (rep a) (mmin r) 0) in *. set (mxa := nth (rep a) (mmax r) 0) in *. set (mnb := nth (rep b) (mmin r) 0) in *. set (mxb := nth (rep b) (mmax r) 0) in *.
  destruct (mod2pi_spec ((tnb + txb) / 2 - (tna + txa) / 2)) as (k & K & _). rewrite K.
  set (bs := (tna + txa) / 2 + ((tnb + txb) / 2 - (tna + txa) / 2 + 2 * PI * IZR k) - (tnb + txb) / 2).
  assert (BS : bs = 2 * PI * IZR k) by (unfold bs; ring).
  set (lo := Rmin tna (tnb + bs)). set (hi0 := Rmax txa (txb + bs)). set (hi := if Rlt_dec (2 * PI) (hi0 - lo) then lo + 2 * PI else hi0).
  assert (LO1 : lo <= tna) by apply Rmin_l. assert (LO2 : lo <= tnb + bs) by apply Rmin_r. assert (HI1 : txa <= hi0) by apply Rmax_l. assert (HI2 : txb + bs <= hi0) by apply Rmax_r.
  assert (WID : 0 <= hi - lo <= 2 * PI) by (unfold hi; destruct pi_small; destruct (Rlt_dec _ _); lra).
  assert (COV : forall t, angle_in tna txa t \/ angle_in tnb txb t -> angle_in lo hi t).
  { intros t H. unfold hi. destruct (Rlt_dec _ _); [ apply angle_any | ]. destruct H as [H | H].
    - eapply angle_mono; [ exact LO1 | exact HI1 | exact H ].
    - eapply angle_mono; [ exact LO2 | exact HI2 | ]. rewrite BS. apply angle_shift. exact H. }
  assert (SZ : (2 <= group_size rep a + group_size rep b)%nat).
  { pose proof (total_pos n (fun j => rep j =? rep a)%nat a La (Nat.eqb_refl _)). pose proof (total_pos n (fun j => rep j =? rep b)%nat b Lb (Nat.eqb_refl _)). unfold group_size. lia. }
  assert (SMALL : (group_size rep a + group_size rep b < 16)%nat -> theta_thresh / INR (group_size rep a + group_size rep b) >= 100 / 15 /\ mag_thresh / INR (group_size rep a + group_size rep b) >= 80).
  { intros H. apply le_INR in SZ. assert (H' : (group_size rep a + group_size rep b <= 15)%nat) by lia. apply le_INR in H'. set (z := INR (group_size rep a + group_size rep b)) in *.
    change (INR 2) with 2 in SZ. replace (INR 15) with 15 in H' by (cbn [INR]; lra).
    assert (Q : / 15 <= / z) by (apply Rinv_le_contravar; lra). unfold theta_thresh, mag_thresh, Rdiv. lra. }
  assert (KEEP : forall P : Prop, ((forall i, (i < n)%nat -> strong i -> mg i <= 80) -> (group_size rep a + group_size rep b < 16)%nat -> P) -> ~ P ->
     grouped (es ++ [Edge c a b]) rep u4 r).
  { intros P HP NP. apply SAME; [ exact G4 | ]. right. intros T. destruct (le_lt_dec 16 (group_size rep a + group_size rep b)); [ assumption | exfalso; apply NP; apply HP; assumption ]. }
  destruct (Rle_dec (hi - lo) _) as [C1 | C1].
  2: { exists u4, r, rep. split; [ reflexivity | ]. split; [ | left; split; reflexivity ]. eapply KEEP; [ | exact C1 ]. intros _ H. destruct (SMALL H) as [S1 _]. destruct pi_small. assert (0 <= Rmin (txa - tna) (txb - tnb)) by (apply Rmin_glb; lra). lra. }
  destruct (Rle_dec (Rmax mxa mxb - Rmin mna mnb) _) as [C2 | C2].
  2: { exists u4, r, rep. split; [ reflexivity | ]. split; [ | left; split; reflexivity ]. eapply KEEP; [ | exact C2 ]. intros T H. destruct (SMALL H) as [_ S2].
       assert (0 <= Rmin (mxa - mna) (mxb - mnb)) by (apply Rmin_glb; lra). unfold strong in *.
       assert (Rmax mxa mxb <= 80) by (apply Rmax_lub; [ rewrite A8; apply T; assumption | rewrite B8; apply T; assumption ]).
       assert (0 <= Rmin mna mnb) by (apply Rmin_glb; lra). lra. }
  clear KEEP SMALL.
  destruct (connect_good n rep u4 (rep a) (rep b) G4 Ra Rb) as (rt & u5 & rep' & -> & G5 & RA & RB & [(BAD & _) | (_ & l & v & LW & J)]); [ congruence | ]. cbn [obind].
  rewrite Ia, Ib in LW.
  assert (RT : rt = v). { rewrite <- RA, J. unfold joined. rewrite Ia. destruct (Nat.eqb_spec (rep a) l); [ reflexivity | ]. destruct LW as [[-> ->] | [-> ->]]; congruence. }
  assert (Lv : (v < n)%nat) by (destruct LW as [[-> ->] | [-> ->]]; assumption).
  rewrite RT. rewrite !write_ok by (rewrite ?L1, ?L2, ?L3, ?L4; exact Lv). cbn [obind].
  assert (CL : forall i, (i < n)%nat -> (rep' i = v /\ (rep i = rep a \/ rep i = rep b)) \/ (rep' i = rep i /\ rep i <> v /\ rep i <> l)).
  { intros i Hi. rewrite J. unfold joined. destruct (Nat.eqb_spec (rep i) l) as [Q | Q].
    - left. split; [ reflexivity | ]. destruct LW as [[-> ->] | [-> ->]]; tauto.
    - destruct (Nat.eq_dec (rep i) v) as [Q' | Q']; [ left; split; [ exact Q' | destruct LW as [[-> ->] | [-> ->]]; tauto ] | right; tauto ]. }
  assert (CO : forall x y, (x < n)%nat -> (y < n)%nat -> rep x = rep y -> rep' x = rep' y) by (intros x y _ _ Q; rewrite !J; unfold joined; rewrite Q; reflexivity).
  assert (RA' : rep' a = v) by (rewrite J; unfold joined; destruct LW as [[-> ->] | [-> ->]]; [ rewrite Nat.eqb_refl; reflexivity | destruct (Nat.eqb_spec (rep a) (rep b)); congruence ]).
  assert (RB' : rep' b = v) by (rewrite J; unfold joined; destruct LW as [[-> ->] | [-> ->]]; [ destruct (Nat.eqb_spec (rep b) (rep a)); congruence | rewrite Nat.eqb_refl; reflexivity ]).
  eexists _, _, rep'. split; [ reflexivity | ]. split.
  2: { right. split; [ exact NE | ]. split; [ congruence | ]. cbv zeta. rewrite RA'. cbn [tmin tmax mmin mmax].
       rewrite !set_at_nth by (rewrite ?L1, ?L2, ?L3, ?L4; exact Lv). rewrite Nat.eqb_refl.
       assert (GS : group_size rep' a = (group_size rep a + group_size rep b)%nat).
       { unfold group_size. rewrite <- total_or.
         - apply total_ext. intros i Hi. rewrite RA'. destruct (CL i Hi) as [[Q D] | (Q & D1 & D2)]; rewrite Q.
           + rewrite Nat.eqb_refl. symmetry. apply orb_true_iff. destruct D as [D | D]; [ left | right ]; apply Nat.eqb_eq; exact D.
           + rewrite (proj2 (Nat.eqb_neq _ _) D1). symmetry. apply orb_false_iff. destruct LW as [[E1 E2] | [E1 E2]]; rewrite <- E1, <- E2; split; apply Nat.eqb_neq; assumption.
         - intros i _. apply andb_false_iff. destruct (Nat.eqb_spec (rep i) (rep a)); [ right; apply Nat.eqb_neq; congruence | left; reflexivity ]. }
       rewrite GS. split; [ exact C1 | exact C2 ]. }
  clear C1 C2. constructor; cbn [tmin tmax mmin mmax].
  - exact G5.
  - rewrite set_at_length; exact L1.
  - rewrite set_at_length; exact L2.
  - rewrite set_at_length; exact L3.
  - rewrite set_at_length; exact L4.
  - intros i Hi Si. rewrite !set_at_nth by (rewrite ?L1, ?L2; exact Lv). destruct (CL i Hi) as [[Q D] | (Q & D & _)]; rewrite Q.
    + rewrite Nat.eqb_refl. apply COV. pose proof (AN i Hi Si) as A. destruct D as [D | D]; rewrite D in A; [ left | right ]; exact A.
    + rewrite (proj2 (Nat.eqb_neq _ _) D). apply AN; assumption.
  - intros i Hi Si. rewrite !set_at_nth by (rewrite ?L1, ?L2; exact Lv). destruct (CL i Hi) as [[Q D] | (Q & D & _)]; rewrite Q.
    + rewrite Nat.eqb_refl. exact WID.
    + rewrite (proj2 (Nat.eqb_neq _ _) D). apply WI; assumption.
  - intros i Hi Si. rewrite !set_at_nth by (rewrite ?L3, ?L4; exact Lv). destruct (CL i Hi) as [[Q D] | (Q & D & _)]; rewrite Q.
    + rewrite Nat.eqb_refl. pose proof (MA i Hi Si) as A. pose proof (Rmin_l mna mnb). pose proof (Rmin_r mna mnb). pose proof (Rmax_l mxa mxb). pose proof (Rmax_r mxa mxb).
      destruct D as [D | D]; rewrite D in A; [ fold mna mxa in A | fold mnb mxb in A ]; lra.
    + rewrite (proj2 (Nat.eqb_neq _ _) D). apply MA; assumption.
  - intros i Hi Si. rewrite !set_at_nth by (rewrite ?L3, ?L4; exact Lv). destruct (CL i Hi) as [[Q D] | (Q & D & _)]; rewrite Q.
    + rewrite Nat.eqb_refl.
      assert (M1 : exists x, (x < n)%nat /\ strong x /\ rep' x = v /\ Rmin mna mnb = mg x).
      { unfold Rmin. destruct (Rle_dec mna mnb); [ exists a1; rewrite <- RA', (CO a1 a) by assumption; tauto | exists b1; rewrite <- RB', (CO b1 b) by assumption; tauto ]. }
      assert (M2 : exists x, (x < n)%nat /\ strong x /\ rep' x = v /\ Rmax mxa mxb = mg x).
      { unfold Rmax. destruct (Rle_dec mxa mxb); [ exists b2; rewrite <- RB', (CO b2 b) by assumption; tauto | exists a2; rewrite <- RA', (CO a2 a) by assumption; tauto ]. }
      destruct M1 as (x & X1 & X2 & X3 & X4). destruct M2 as (y & Y1 & Y2 & Y3 & Y4). exists x, y. tauto.
    + rewrite (proj2 (Nat.eqb_neq _ _) D). destruct (AT i Hi Si) as (x & y & X1 & Y1 & X2 & Y2 & X3 & Y3 & X4 & Y4). exists x, y.
      rewrite <- Q, (CO x i), (CO y i) by assumption. rewrite Q. tauto.
  - intros i Hi. destruct (CL i Hi) as [[Q D] | (Q & _)]; rewrite Q; [ | apply link_more; apply LK; exact Hi ].
    assert (AB : clos_refl_sym_trans nat (joins (es ++ [Edge c a b])) (rep a) (rep b)).
    { eapply rst_trans; [ apply rst_sym, link_more, LK; exact La | ]. eapply rst_trans; [ | apply link_more, LK; exact Lb ].
      apply rst_step. exists c. apply in_or_app. right. left. reflexivity. }
    eapply rst_trans; [ apply link_more, LK; exact Hi | ]. destruct D as [-> | ->]; destruct LW as [[-> ->] | [-> ->]]; first [ apply rst_refl | exact AB | apply rst_sym; exact AB ].
  - intros T x y (c' & H). apply in_app_or in H. destruct H as [H | [H | []]].
    + assert (JH : joins es x y) by (exists c'; exact H). destruct (IN x y JH) as [Hx Hy]. destruct (FR T x y JH) as [Q | Q]; [ left; apply CO; assumption | ].
      right. pose proof (coarser_size rep rep' x CO Hx). pose proof (coarser_size rep rep' y CO Hy). lia.
    + injection H as _ <- <-. left. congruence.
Qed.
Lemma merge_edges_ok : forall todo es rep uf r, grouped es rep uf r ->
  (forall e, In e (es ++ todo) -> (pixel_a e < n)%nat /\ (pixel_b e < n)%nat /\ strong (pixel_a e) /\ strong (pixel_b e)) ->
  exists uf' r' rep', merge_edges uf r todo = Ok (uf', r') /\ grouped (es ++ todo) rep' uf' r'.
Proof.
  induction todo as [ | e todo IH ]; intros es rep uf r G H.
  - exists uf, r, rep. rewrite app_nil_r. split; [ reflexivity | exact G ].
  - destruct (H e) as (H1 & H2 & H3 & H4); [ apply in_or_app; right; left; reflexivity | ].
    destruct (merge_edge_ok es rep uf r e G H1 H2 H3 H4) as (u & r1 & rep1 & E & G1 & _).
    { intros a b (c & J). destruct (H (Edge c a b)) as (X & Y & _); [ apply in_or_app; left; exact J | split; [ exact X | exact Y ] ]. }
    destruct (IH (es ++ [e]) rep1 u r1 G1) as (u' & r' & rep' & E' & G'); [ rewrite <- app_assoc; exact H | ].
    exists u', r', rep'. cbn [merge_edges]. rewrite E. cbn [obind]. rewrite E'. split; [ reflexivity | ]. rewrite <- app_assoc in G'. exact G'.
Qed.
End Merge.

(** ** Collecting *)
Definition ascending (m : cluster_map) : Prop := StronglySorted lt (map fst m).
Lemma add_point_keys k p m x : In x (map fst (add_point k p m)) <-> x = k \/ In x (map fst m).
Proof.
  induction m as [ | [k' ps] m IH ]; cbn [add_point map fst]; [ cbn; firstorder | ].
  destruct (Nat.eqb_spec k k') as [-> | NE]; [ cbn [map fst]; cbn; firstorder | ]. destruct (Nat.ltb_spec k k'); cbn [map fst In]; [ firstorder | rewrite IH; firstorder ].
Qed.
Lemma add_point_ascending k p m : ascending m -> ascending (add_point k p m).
Proof.
  unfold ascending. induction m as [ | [k' ps] m IH ]; cbn [add_point map fst]; intros H; [ repeat constructor | ].
  apply StronglySorted_inv in H. destruct H as [H F]. destruct (Nat.eqb_spec k k') as [-> | NE]; [ cbn [map fst]; constructor; assumption | ].
  destruct (Nat.ltb_spec k k') as [L | L]; cbn [map fst].
  - constructor; [ constructor; assumption | ]. constructor; [ exact L | ]. eapply Forall_impl; [ | exact F ]. cbn. intros. lia.
  - constructor; [ apply IH; exact H | ]. apply Forall_forall. intros x X. apply add_point_keys in X. destruct X as [-> | X]; [ lia | ]. exact (proj1 (Forall_forall _ _) F x X).
Qed.
Definition lookup (m : cluster_map) (k : nat) : list xyweight := match List.find (fun kv => fst kv =? k)%nat m with Some kv => snd kv | None => [] end.
Lemma lookup_add k p m x : ascending m -> lookup (add_point k p m) x = if (x =? k)%nat then lookup m k ++ [p] else lookup m x.
Proof.
  unfold lookup, ascending. induction m as [ | [k' ps] m IH ]; cbn [add_point List.find map fst]; intros H.
  - destruct (Nat.eqb_spec k x), (Nat.eqb_spec x k); try congruence; reflexivity.
  - apply StronglySorted_inv in H. destruct H as [H F]. specialize (IH H). destruct (Nat.eqb_spec k k') as [-> | NE].
    + cbn [List.find fst]. destruct (Nat.eqb_spec k' x), (Nat.eqb_spec x k'); try congruence. rewrite Nat.eqb_refl. reflexivity.
    + destruct (Nat.ltb_spec k k') as [L | L]; cbn [List.find fst].
      * destruct (Nat.eqb_spec k' x) as [E1 | E1], (Nat.eqb_spec k x) as [E2 | E2], (Nat.eqb_spec x k) as [E3 | E3]; try congruence; try lia; try reflexivity.
        destruct (Nat.eqb_spec k' k); [ lia | ].
        assert (NF : List.find (fun kv : nat * list xyweight => (fst kv =? k)%nat) m = None).
        { clear - F L. induction m as [ | [q qs] m IH ]; [ reflexivity | ]. cbn [map fst] in F. inversion F as [ | ? ? F1 F2 ]; subst. cbn [List.find fst]. destruct (Nat.eqb_spec q k); [ lia | apply IH; exact F2 ]. }
        rewrite NF. reflexivity.
      * destruct (Nat.eqb_spec k' x) as [E1 | E1]; [ destruct (Nat.eqb_spec x k); [ congruence | reflexivity ] | ]. rewrite IH.
        destruct (Nat.eqb_spec x k); [ | reflexivity ]. destruct (Nat.eqb_spec k' k); [ congruence | reflexivity ].
Qed.
Lemma in_lookup m k ps : ascending m -> (forall k ps, In (k, ps) m -> ps <> []) -> (In (k, ps) m <-> ps = lookup m k /\ ps <> []).
Proof.
  unfold lookup, ascending. induction m as [ | [k' qs] m IH ]; cbn [List.find map fst In]; intros H NE.
  - split; [ intros [] | intros [-> B]; contradiction ].
  - apply StronglySorted_inv in H. destruct H as [H F]. specialize (IH H (fun a b I => NE a b (or_intror I))). destruct (Nat.eqb_spec k' k) as [-> | NEQ]; cbn [snd].
    + split.
      * intros [E | I]; [ injection E as <-; split; [ reflexivity | apply (NE k); left; reflexivity ] | ]. exfalso.
        assert (In k (map fst m)) by (apply in_map_iff; exists (k, ps); split; [ reflexivity | exact I ]). pose proof (proj1 (Forall_forall _ _) F k H0). cbn in *. lia.
      * intros [-> _]. left. reflexivity.
    + rewrite <- IH. split; [ intros [E | I]; [ congruence | exact I ] | tauto ].
Qed.
Section Collect.
Variables (w n : nat) (mag : image) (rep : nat -> nat).
Definition as_point (q : pixel) : xyweight := XYW (INR (fst q)) (INR (snd q)) (value mag q).
Definition big (q : pixel) : bool := (4 <=? group_size n rep (idx w q))%nat.
Lemma collect_ok : forall qs uf m, good n rep uf -> (forall q, In q qs -> (idx w q < n)%nat /\ get mag (fst q) (snd q) = Ok (value mag q)) ->
  ascending m -> (forall k ps, In (k, ps) m -> ps <> []) ->
  exists m', collect w mag qs uf m = Ok m' /\ ascending m' /\ (forall k ps, In (k, ps) m' -> ps <> []) /\
    forall k, lookup m' k = lookup m k ++ map as_point (filter (fun q => big q && (rep (idx w q) =? k)%nat) qs).
Proof.
  induction qs as [ | [x y] qs IH ]; intros uf m G H A NE.
  - exists m. split; [ reflexivity | ]. split; [ exact A | ]. split; [ exact NE | ]. intros k. cbn [filter map]. rewrite app_nil_r. reflexivity.
  - destruct (H (x, y) (or_introl eq_refl)) as [HI HG]. cbn [fst snd] in HG. cbn [collect filter map]. change (y * w + x)%nat with (idx w (x, y)).
    destruct (get_set_size_good n rep uf (idx w (x, y)) G HI) as (u1 & -> & G1). cbn [obind]. fold (group_size n rep (idx w (x, y))).
    unfold minimum_segment_size, big at 1. destruct (Nat.ltb_spec (group_size n rep (idx w (x, y))) 4) as [L | L].
    + destruct (Nat.leb_spec 4 (group_size n rep (idx w (x, y)))); [ lia | ]. cbn [andb]. apply IH; [ exact G1 | intros q Q; apply H; right; exact Q | exact A | exact NE ].
    + destruct (Nat.leb_spec 4 (group_size n rep (idx w (x, y)))); [ | lia ].
      destruct (get_representative_good n rep u1 (idx w (x, y)) G1 HI) as (u2 & -> & G2 & _). cbn [obind]. rewrite HG. cbn [obind].
      change (XYW (INR x) (INR y) (value mag (x, y))) with (as_point (x, y)).
      destruct (IH u2 (add_point (rep (idx w (x, y))) (as_point (x, y)) m)) as (m' & E & A' & NE' & LK).
      * exact G2.
      * intros q Q. apply H. right. exact Q.
      * apply add_point_ascending. exact A.
      * clear - NE. induction m as [ | [k' qs'] m IH ]; cbn [add_point]; intros k ps I.
        -- destruct I as [E | []]. injection E as _ <-. discriminate.
        -- destruct (_ =? k')%nat; [ destruct I as [E | I]; [ injection E as _ <-; destruct qs'; discriminate | apply (NE k); right; exact I ] | ].
           destruct (_ <? k')%nat; [ destruct I as [E | I]; [ injection E as _ <-; discriminate | apply (NE k); exact I ] | ].
           destruct I as [E | I]; [ apply (NE k); left; exact E | apply (IH (fun a b J => NE a b (or_intror J)) k ps I) ].
      * exists m'. split; [ exact E | ]. split; [ exact A' | ]. split; [ exact NE' | ]. intros k. rewrite LK, lookup_add by exact A. cbn [andb].
        destruct (Nat.eqb_spec k (rep (idx w (x, y)))) as [-> | N1].
        -- rewrite Nat.eqb_refl. cbn [map]. rewrite <- app_assoc. reflexivity.
        -- destruct (Nat.eqb_spec (rep (idx w (x, y))) k); [ congruence | reflexivity ].
Qed.
End Collect.
