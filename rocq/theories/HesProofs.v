(** Proofs about the assembly of the system, over the reals. *)
From Coq Require Import ZArith List Bool Lia Reals Lra Sorted.
From Verif Require Import Base Arith OMap RArith JacModel JacSpec MEstModel SbmModel SbmSpec SbmProofs SbmMore SbmReal HesModel HesSpec.
Import ListNotations.
Open Scope nat_scope.

Notation entry := (dvref * list (list R))%type.
Definition bo (d : dvref) : nat := Z.to_nat (block d).
Definition lfind (l : list entry) (b : nat) : option entry :=
  find (fun e : entry => (block (fst e) =? Z.of_nat b)%Z) l.
Definition lj (l : list entry) (k b i : nat) : R :=
  match lfind l b with Some e => ent (snd e) k i | None => 0%R end.
Definition fits (lay : list nat) (q : nat) (l : list entry) : Prop :=
  forall d J, In (d, J) l -> (0 <= block d)%Z /\ bo d < length lay /\ mindim d = size_of lay (bo d) /\
    shaped RA q (mindim d) J = true.
Definition lsorted (l : list entry) : Prop := StronglySorted Z.lt (map (fun e : entry => block (fst e)) l).

Lemma lfind_in l b e : lfind l b = Some e -> In e l /\ block (fst e) = Z.of_nat b.
Proof. intro F. apply find_some in F as [F1 F2]. apply Z.eqb_eq in F2. now split. Qed.

Lemma lfind_above l x b : Forall (Z.lt x) (map (fun e : entry => block (fst e)) l) ->
  (Z.of_nat b <= x)%Z -> lfind l b = None.
Proof.
  intros F Hb. destruct (lfind l b) as [e | ] eqn:E; [ | reflexivity].
  apply lfind_in in E as [E1 E2]. rewrite Forall_forall in F.
  specialize (F (block (fst e)) (in_map (fun e : entry => block (fst e)) l e E1)). lia.
Qed.

(** A sum over the entries of one block has at most one summand. *)
Lemma sum_find (g : entry -> R) l c : lsorted l -> (forall e, In e l -> (0 <= block (fst e))%Z) ->
  rsum (map (fun e : entry => if bo (fst e) =? c then g e else 0%R) l) =
  match lfind l c with Some e => g e | None => 0%R end.
Proof.
  induction l as [ | e l IH]; intros Hs Hn; [reflexivity | ].
  unfold lsorted in Hs. cbn [map] in Hs. inversion_clear Hs as [ | ? ? S1 S2].
  cbn [map rsum]. rewrite (IH S1 (fun e' H => Hn e' (or_intror H))).
  pose proof (Hn e (or_introl eq_refl)) as H0.
  unfold lfind at 2. cbn [find]. fold (lfind l c). unfold bo.
  destruct (Nat.eqb_spec (Z.to_nat (block (fst e))) c) as [Q | Q].
  - rewrite (proj2 (Z.eqb_eq (block (fst e)) (Z.of_nat c))) by lia.
    rewrite (lfind_above l (block (fst e)) c S2) by lia. lra.
  - rewrite (proj2 (Z.eqb_neq (block (fst e)) (Z.of_nat c))) by lia. lra.
Qed.

Lemma bindex_ok d : (0 <= block d)%Z -> bindex d = Ok (bo d).
Proof. intro H. unfold bindex. rewrite (proj2 (Z.ltb_ge (block d) 0) H). reflexivity. Qed.

(** ** One block row. *)
Definition row_updates (n1 b1 : nat) (J1 : list (list R)) (l : list entry) : list (nat * nat * list (list R)) :=
  map (fun e : entry => (b1, bo (fst e), mmul RA (mindim (fst e)) (mtrans RA n1 J1) (snd e))) l.

Lemma correlated_updates n1 b1 (J1 : list (list R)) (l : list entry) :
  (forall e, In e l -> (0 <= block (fst e))%Z) -> forall H : sbm RA,
  correlated RA n1 J1 b1 l H =
  updates RA (map (fun e : nat * nat * mat RA => (fst e, plus RA (snd e))) (row_updates n1 b1 J1 l)) H.
Proof.
  induction l as [ | (d & J) l IH]; intros Hn H; [reflexivity | ].
  cbn [correlated row_updates map updates fst snd].
  rewrite (bindex_ok d (Hn (d, J) (or_introl eq_refl))). cbn [obind].
  change (mmul RA (mindim d) (mtrans RA n1 J1) J : mat RA) with (mmul RA (mindim d) (mtrans RA n1 J1) J).
  destruct (update RA b1 (bo d) _ H) as [H' | | | ]; cbn [obind]; try reflexivity.
  exact (IH (fun e Q => Hn e (or_intror Q)) H').
Qed.

Lemma mtrans_ent q n (J : list (list R)) i k : shaped RA q n J = true -> i < n ->
  ent (mtrans RA n J) i k = ent J k i.
Proof. intros Hs Hi. exact (mtrans_val RA q n J k i Hs Hi). Qed.

Lemma correlated_ok lay q n1 b1 (J1 : list (list R)) l (H : sbm RA) :
  wf H -> owns H = true -> rbi H = lay -> cbi H = lay -> fits lay q l -> lsorted l ->
  b1 < length lay -> n1 = size_of lay b1 -> shaped RA q n1 J1 = true ->
  exists H' : sbm RA, correlated RA n1 J1 b1 l H = Ok H' /\ wf H' /\ alike RA H' H /\
    (forall r i c j, r < length lay -> c < length lay -> i < size_of lay r -> j < size_of lay c ->
       val H' r i c j = (val H r i c j +
         (if (b1 =? r)%nat then sumn q (fun k => ent J1 k i * lj l k c j) else 0))%R) /\
    (forall r c, blk H' r c <> None <-> blk H r c <> None \/ (r = b1 /\ exists e, In e l /\ bo (fst e) = c)).
Proof.
  intros W O ER EC F HS Hb N1 S1.
  assert (Hn : forall e, In e l -> (0 <= block (fst e))%Z) by (intros (d & J) Q; apply (F d J Q)).
  rewrite (correlated_updates n1 b1 J1 l Hn H).
  destruct (accumulate (row_updates n1 b1 J1 l) H W O) as (H' & E & W' & L & HV & HB).
  { intros r c M HM. unfold row_updates in HM. apply in_map_iff in HM as ((d & J) & EQ & HI).
    cbn [fst snd] in EQ. assert (r = b1) by congruence. assert (c = bo d) by congruence.
    assert (M = mmul RA (mindim d) (mtrans RA n1 J1) J) by congruence. subst r c M.
    destruct (F d J HI) as (F1 & F2 & F3 & F4). rewrite ER, EC. conj; [exact Hb | exact F2 | ].
    rewrite <- F3, <- N1. apply shaped_iff. split.
    - unfold mmul. rewrite map_length. unfold mtrans. rewrite map_length. apply seq_length.
    - apply Forall_forall. intros x Hx. unfold mmul in Hx. apply in_map_iff in Hx as (y & <- & _).
      now rewrite map_length, seq_length. }
  exists H'. conj; [exact E | exact W' | exact L | | ].
  - intros r i c j Hr Hc Hi Hj. rewrite HV. f_equal. unfold contrib, row_updates. rewrite map_map.
    destruct (Nat.eqb_spec b1 r) as [-> | Hne].
    + cbn [andb].
      etransitivity; [ | etransitivity; [exact (sum_find (fun e => ent (mmul RA (mindim (fst e)) (mtrans RA n1 J1) (snd e)) i j) l c HS Hn) | ]].
      * f_equal.
      * unfold lj. destruct (lfind l c) as [(d & J) | ] eqn:EF.
        -- apply lfind_in in EF as [EF1 EF2]. cbn [fst snd] in *.
           destruct (F d J EF1) as (F1 & F2 & F3 & F4).
           assert (Bc : bo d = c) by (unfold bo; lia).
           etransitivity; [exact (mmul_ent (mtrans RA n1 J1) J n1 q (mindim d) i j
             (mtrans_shaped RA q n1 J1 S1) ltac:(rewrite N1; exact Hi) ltac:(rewrite F3, Bc; exact Hj)) | ].
           apply sumn_ext. intros k _. f_equal. apply (mtrans_ent q n1 J1 i k S1). now rewrite N1.
        -- symmetry. apply sumn_zero. intros. lra.
    + clear - Hne. induction l as [ | (d & J) l IH]; [reflexivity | ].
      cbn [map rsum fst snd]. cbn [andb].
      etransitivity; [ | apply (Rplus_0_l 0)]. f_equal. exact IH.
  - intros r c. rewrite HB. unfold row_updates. rewrite map_map. cbn [fst].
    split; (intros [Q | Q]; [now left | right]).
    + apply in_map_iff in Q as (e & EQ & HI). split; [congruence | ]. exists e. split; [exact HI | congruence].
    + destruct Q as (-> & e & HI & <-). apply in_map_iff. now exists e.
Qed.

(** ** All blocks of a term. *)
Lemma sub_segment_ok o (v y : list R) : o + length v <= length y ->
  exists y' : list R, sub_segment RA o v y = Ok y' /\ length y' = length y /\
    forall k, k < length y -> nth k y' 0%R =
      (nth k y 0 - (if (o <=? k) && (k <? o + length v) then nth (k - o)%nat v 0 else 0))%R.
Proof.
  intro H. destruct (add_segment_ok o (map (fun x => 0 - x)%R v) y) as (y' & E & L & V).
  { now rewrite map_length. }
  exists y'. conj; [exact E | exact L | ]. intros k Hk. rewrite (V k Hk), map_length.
  destruct ((o <=? k) && (k <? o + length v)) eqn:Q; [ | lra].
  set (G := fun x : R => (0 - x)%R). change (map _ v) with (map G v).
  rewrite (nth_indep (map G v) 0%R (G 0%R)).
  - rewrite map_nth. unfold G. lra.
  - rewrite map_length. apply andb_true_iff in Q as [Q1 Q2].
    apply Nat.leb_le in Q1. apply Nat.ltb_lt in Q2. lia.
Qed.

Lemma lj_cons d J l k b i : lj ((d, J) :: l) k b i =
  if (block d =? Z.of_nat b)%Z then ent J k i else lj l k b i.
Proof. unfold lj, lfind. cbn [find fst]. now destruct (block d =? Z.of_nat b)%Z. Qed.

Lemma lj_above l x k b i : Forall (Z.lt x) (map (fun e : entry => block (fst e)) l) ->
  (Z.of_nat b <= x)%Z -> lj l k b i = 0%R.
Proof. intros F H. unfold lj. now rewrite (lfind_above l x b F H). Qed.

Lemma build_block_ok lay q (e : list R) : layout lay -> length e = q -> forall l (H : sbm RA) (rhs : list R),
  wf H -> owns H = true -> rbi H = lay -> cbi H = lay -> length rhs = total lay ->
  fits lay q l -> lsorted l ->
  exists (H' : sbm RA) (rhs' : list R), build_block RA e l H rhs = Ok (H', rhs') /\
    wf H' /\ alike RA H' H /\ length rhs' = total lay /\
    (forall r i c j, r < length lay -> c < length lay -> i < size_of lay r -> j < size_of lay c ->
       val H' r i c j = (val H r i c j +
         (if (r <=? c)%nat then sumn q (fun k => lj l k r i * lj l k c j) else 0))%R) /\
    (forall r i, r < length lay -> i < size_of lay r ->
       nth (base_of lay r + i) rhs' 0%R =
       (nth (base_of lay r + i)%nat rhs 0 - sumn q (fun k => lj l k r i * nth k e 0))%R) /\
    (forall r c, blk H' r c <> None <-> blk H r c <> None \/
       (r <= c /\ (exists e, In e l /\ bo (fst e) = r) /\ (exists e, In e l /\ bo (fst e) = c))).
Proof.
  intros LAY LE. induction l as [ | (d & J) l IH]; intros H rhs W O ER EC LR F HS.
  - exists H, rhs. conj; [reflexivity | exact W | apply alike_refl | exact LR | | | ].
    + intros. unfold lj. cbn [lfind find]. destruct (r <=? c); [ | lra].
      rewrite sumn_zero; [lra | ]. intros; lra.
    + intros. unfold lj. cbn [lfind find]. rewrite sumn_zero; [lra | ]. intros; lra.
    + intros r c. split; [now left | intros [Q | (_ & (e0 & [] & _) & _)]; exact Q].
  - destruct (F d J (or_introl eq_refl)) as (F1 & F2 & F3 & F4).
    cbn [build_block]. rewrite (bindex_ok d F1). cbn [obind].
    assert (LV : @length R (mvec RA (mtrans RA (mindim d) J) e) = mindim d).
    { unfold mvec, mtrans. now rewrite !map_length, seq_length. }
    destruct (sub_segment_ok (base_of (rbi H) (bo d)) (mvec RA (mtrans RA (mindim d) J) e) rhs)
      as (rhs1 & E1 & L1 & V1).
    { rewrite ER, LR. pose proof (layout_total lay (bo d) LAY F2).
      apply eq_ind_r with (P := fun z => base_of lay (bo d) + z <= total lay) (2 := LV). lia. }
    rewrite E1. cbn [obind].
    destruct (correlated_ok lay q (mindim d) (bo d) J ((d, J) :: l) H W O ER EC F HS F2 F3 F4)
      as (H1 & E2 & W1 & A1 & HV1 & HB1).
    rewrite E2. cbn [obind].
    pose proof A1 as (A11 & A12 & A13 & A14).
    unfold lsorted in HS. cbn [map fst] in HS. inversion_clear HS as [ | ? ? S1 S2].
    destruct (IH H1 rhs1 W1) as (H' & rhs' & E & W' & AL & L' & HV & HR & HB).
    { congruence. } { congruence. } { congruence. } { congruence. }
    { intros d0 J0 Q. apply F. now right. } { exact S1. }
    exists H', rhs'. conj; [exact E | exact W' | eapply alike_trans; [exact AL | exact A1] | exact L' | | | ].
    + intros r i c j Hr Hc Hi Hj. rewrite (HV r i c j Hr Hc Hi Hj), (HV1 r i c j Hr Hc Hi Hj).
      rewrite Rplus_assoc. f_equal.
      destruct (Nat.eqb_spec (bo d) r) as [Q | Q].
      * assert (Z.of_nat r = block d) by (unfold bo in Q; lia).
        assert (K1 : sumn q (fun k => lj l k r i * lj l k c j)%R = 0%R).
        { apply sumn_zero. intros k _. rewrite (lj_above l (block d) k r i S2) by lia. lra. }
        rewrite K1. destruct (Nat.leb_spec r c) as [K2 | K2].
        -- rewrite Rplus_0_r. apply sumn_ext. intros k _. rewrite (lj_cons d J l k r i).
           rewrite (proj2 (Z.eqb_eq (block d) (Z.of_nat r))) by lia. reflexivity.
        -- rewrite Rplus_0_r. apply sumn_zero. intros k _. rewrite (lj_cons d J l k c j).
           rewrite (proj2 (Z.eqb_neq (block d) (Z.of_nat c))) by lia.
           rewrite (lj_above l (block d) k c j S2) by lia. lra.
      * rewrite Rplus_0_l. destruct (Nat.leb_spec r c) as [K2 | K2]; [ | reflexivity].
        apply sumn_ext. intros k _. rewrite !lj_cons.
        assert (Z.of_nat r <> block d) by (unfold bo in Q; lia).
        rewrite (proj2 (Z.eqb_neq (block d) (Z.of_nat r))) by lia.
        destruct (Z.eqb_spec (block d) (Z.of_nat c)) as [K3 | K3]; [ | reflexivity].
        rewrite (lj_above l (block d) k r i S2) by lia. lra.
    + intros r i Hr Hi. rewrite (HR r i Hr Hi).
      assert (HT : base_of lay r + i < length rhs).
      { rewrite LR. pose proof (layout_total lay r LAY Hr). lia. }
      rewrite (V1 (base_of lay r + i) HT). rewrite ER.
      replace (@length R (mvec RA (mtrans RA (mindim d) J) e)) with (size_of lay (bo d))
        by (symmetry; etransitivity; [exact LV | exact F3]).
      destruct (Nat.eqb_spec (bo d) r) as [Q | Q].
      * subst r. rewrite (proj2 (Nat.leb_le (base_of lay (bo d)) (base_of lay (bo d) + i))) by lia.
        rewrite (proj2 (Nat.ltb_lt (base_of lay (bo d) + i) (base_of lay (bo d) + size_of lay (bo d)))) by lia.
        cbn [andb]. replace (base_of lay (bo d) + i - base_of lay (bo d)) with i by lia.
        assert (K1 : sumn q (fun k => lj l k (bo d) i * nth k e 0)%R = 0%R).
        { apply sumn_zero. intros k _. rewrite (lj_above l (block d) k (bo d) i S2) by (unfold bo; lia). lra. }
        rewrite K1.
        assert (K2 : nth i (mvec RA (mtrans RA (mindim d) J) e) 0%R =
                     sumn q (fun k => lj ((d, J) :: l) k (bo d) i * nth k e 0)%R).
        { etransitivity; [exact (mvec_ent (mtrans RA (mindim d) J) (mindim d) q e i
            (mtrans_shaped RA q (mindim d) J F4) ltac:(rewrite F3; exact Hi)) | ].
          apply sumn_ext. intros k _. f_equal. rewrite lj_cons.
          rewrite (proj2 (Z.eqb_eq (block d) (Z.of_nat (bo d)))) by (unfold bo; lia).
          apply (mtrans_ent q (mindim d) J i k F4). now rewrite F3. }
        rewrite <- K2, Rminus_0_r. reflexivity.
      * assert (K1 : (base_of lay (bo d) <=? base_of lay r + i) &&
                     (base_of lay r + i <? base_of lay (bo d) + size_of lay (bo d)) = false).
        { apply andb_false_iff. rewrite Nat.leb_gt, Nat.ltb_ge.
          destruct (Nat.lt_ge_cases (base_of lay r + i) (base_of lay (bo d))) as [K | K]; [now left | right].
          destruct (Nat.lt_ge_cases (base_of lay r + i) (base_of lay (bo d) + size_of lay (bo d))) as [K3 | K3]; [ | exact K3].
          exfalso. apply Q.
          destruct (locate_inj lay (bo d) (base_of lay r + i - base_of lay (bo d)) r i LAY F2 ltac:(lia) Hr Hi ltac:(lia)) as [X _].
          exact X. }
        rewrite K1. rewrite Rminus_0_r. f_equal. apply sumn_ext. intros k _. rewrite lj_cons.
        rewrite (proj2 (Z.eqb_neq (block d) (Z.of_nat r))) by (unfold bo in Q; lia). reflexivity.
    + intros r c. rewrite HB, HB1. rewrite Forall_forall in S2.
      assert (LT : forall e0, In e0 l -> bo d < bo (fst e0)).
      { intros e0 Q. pose proof (S2 _ (in_map (fun e : entry => block (fst e)) l e0 Q)) as K.
        destruct e0 as (d0 & J0). destruct (F d0 J0 (or_intror Q)) as (G1 & _). unfold bo. cbn [fst] in *. lia. }
      split.
      * intros [[Q | (Q1 & e0 & Q2 & Q3)] | (Q1 & (e0 & Q2 & Q3) & (e1 & Q4 & Q5))].
        -- now left.
        -- right. subst r. conj; [ | exists (d, J); split; [now left | reflexivity] | now exists e0].
           destruct Q2 as [<- | Q2]; [cbn [fst] in Q3; lia | ]. pose proof (LT e0 Q2). lia.
        -- right. conj; [exact Q1 | exists e0; split; [now right | exact Q3] | exists e1; split; [now right | exact Q5]].
      * intros [Q | (Q1 & (e0 & Q2 & Q3) & (e1 & Q4 & Q5))]; [now left; left | ].
        destruct Q2 as [<- | Q2].
        -- left. right. split; [now symmetry | now exists e1].
        -- destruct Q4 as [<- | Q4].
           ++ cbn [fst] in Q5. pose proof (LT e0 Q2). lia.
           ++ right. conj; [exact Q1 | now exists e0 | now exists e1].
Qed.

(** ** From a container to its list of weighted Jacobians. *)
Section Term.
Variable scaling : dvref -> R.
Variable useM : bool.
Notation term := (hterm RA).

Lemma find_weighted (Wt : list (list R)) (m : list (Z * (dvref * mat RA))) b :
  StronglySorted Z.lt (map fst m) -> Forall (fun e => block (fst (snd e)) = fst e) m ->
  lfind (map (fun x : Z * (dvref * mat RA) => let '(_, (d, J)) := x in
         (d, mmul RA (mindim d) (mscale RA (scaling d) Wt) J)) m) b =
  match mget Z.compare (Z.of_nat b) m with
  | Some (d, J) => Some (d, mmul RA (mindim d) (mscale RA (scaling d) Wt) J)
  | None => None
  end.
Proof.
  induction m as [ | (k & d & J) m IH]; intros HS HK; [reflexivity | ].
  cbn [map fst] in HS. inversion_clear HS as [ | ? ? S1 S2]. inversion_clear HK as [ | ? ? K1 K2].
  cbn [fst snd] in K1. unfold lfind. cbn [map find fst]. fold (lfind (map (fun x : Z * (dvref * mat RA) => let '(_, (d, J)) := x in
         (d, mmul RA (mindim d) (mscale RA (scaling d) Wt) J)) m) b).
  rewrite K1. cbn [mget].
  destruct (Z.compare_spec (Z.of_nat b) k) as [Q | Q | Q].
  - rewrite <- Q. now rewrite Z.eqb_refl.
  - rewrite (proj2 (Z.eqb_neq k (Z.of_nat b))) by lia.
    apply (lfind_above _ k); [ | lia]. rewrite map_map.
    rewrite Forall_forall in *. intros x Hx. apply in_map_iff in Hx as ((k0 & d0 & J0) & <- & HI).
    pose proof (K2 _ HI) as G. cbn [fst snd] in *. rewrite G.
    apply S2. apply in_map_iff. now exists (k0, (d0, J0)).
  - rewrite (proj2 (Z.eqb_neq k (Z.of_nat b))) by lia. now apply IH.
Qed.

Lemma mscale_shaped p q a (M : list (list R)) : shaped RA p q M = true -> shaped RA p q (mscale RA a M) = true.
Proof.
  intro H. apply shaped_iff in H as [L F]. apply shaped_iff. split.
  - unfold mscale. now rewrite map_length.
  - apply Forall_forall. intros x Hx. unfold mscale in Hx. apply in_map_iff in Hx as (y & <- & Hy).
    rewrite Forall_forall in F. unfold vscale. rewrite map_length. now apply F.
Qed.

Lemma mscale_ent p q a (M : list (list R)) i j : shaped RA p q M = true -> i < p -> j < q ->
  ent (mscale RA a M) i j = (a * ent M i j)%R.
Proof.
  intros H Hi Hj. pose proof (shaped_row RA p q M i H Hi) as LR. apply shaped_iff in H as [L _].
  unfold ent, mscale. set (F := fun r : list R => vscale RA a r). change (map _ M) with (map F M).
  rewrite (nth_indep (map F M) [] (F [])) by (rewrite map_length; apply eq_ind_r with (P := fun z => i < z) (2 := L); exact Hi).
  rewrite map_nth. unfold F, vscale. set (G := fun x : R => (a * x)%R).
  change (map (mul RA a) (nth i M [])) with (map G (nth i M [])).
  rewrite (nth_indep (map G (nth i M [])) 0%R (G 0%R)).
  - now rewrite map_nth.
  - rewrite map_length. apply eq_ind_r with (P := fun z => j < z) (2 := LR). exact Hj.
Qed.

Definition wt (t : term) : list (list R) := mscale RA (sqrt_weight RA useM (tterm t)) (esqrt_t (tterm t)).

Lemma wt_shaped lay t : term_ok lay t -> shaped RA (height t) (crows (tjac t)) (wt t) = true.
Proof. intros (_ & _ & _ & H). now apply mscale_shaped. Qed.

Lemma wt_ent lay t k m : term_ok lay t -> k < height t -> m < crows (tjac t) ->
  ent (wt t) k m = (sw useM t * ent (esqrt_t (tterm t)) k m)%R.
Proof.
  intros (_ & _ & _ & H) Hk Hm. unfold wt.
  etransitivity; [exact (mscale_ent _ _ _ _ k m H Hk Hm) | ]. reflexivity.
Qed.

Lemma weighted_lj lay t k b i : term_ok lay t -> k < height t -> b < length lay -> i < size_of lay b ->
  lj (weighted RA scaling (wt t) (tjac t)) k b i = jent scaling useM t k b i.
Proof.
  intros T Hk Hb Hi. pose proof (wt_shaped lay t T) as WS. pose proof T as ((C1 & C2) & T2 & T3 & T4).
  unfold lj, weighted. rewrite find_weighted.
  2: exact C1.
  2: { eapply Forall_impl; [ | exact C2]. now intros a (G & _). }
  unfold jent. destruct (mget Z.compare (Z.of_nat b) (cmap (tjac t))) as [(d & J) | ] eqn:EM; [ | reflexivity].
  cbn [snd].
  assert (HI : In (Z.of_nat b, (d, J)) (cmap (tjac t))).
  { clear - EM. revert EM. induction (cmap (tjac t)) as [ | (k0 & v0) m IH]; [discriminate | ].
    cbn [mget]. destruct (Z.compare_spec (Z.of_nat b) k0) as [Q | Q | Q]; intro E.
    - left. congruence.
    - discriminate.
    - right. now apply IH. }
  rewrite Forall_forall in T2, C2. destruct (T2 _ HI) as [_ G1]. destruct (C2 _ HI) as (_ & _ & G2).
  cbn [fst snd] in G1, G2. rewrite Nat2Z.id in G1.
  etransitivity; [exact (mmul_ent (mscale RA (scaling d) (wt t)) J (height t) (crows (tjac t)) (mindim d) k i
    (mscale_shaped _ _ _ _ WS) Hk ltac:(rewrite G1; exact Hi)) | ].
  rewrite <- !sumn_scale. apply sumn_ext. intros m Hm.
  rewrite (mscale_ent (height t) (crows (tjac t)) _ _ k m WS Hk Hm), (wt_ent lay t k m T Hk Hm). lra.
Qed.

Lemma weighted_err lay t k : term_ok lay t -> k < height t ->
  nth k (mvec RA (wt t) (eerror (tterm t))) 0%R = werr useM t k.
Proof.
  intros T Hk. unfold werr.
  etransitivity; [exact (mvec_ent (wt t) (height t) (crows (tjac t)) (eerror (tterm t)) k (wt_shaped lay t T) Hk) | ].
  rewrite <- sumn_scale. apply sumn_ext. intros m Hm. rewrite (wt_ent lay t k m T Hk Hm). apply Rmult_assoc.
Qed.

Lemma weighted_in t d (J : list (list R)) : In (d, J) (weighted RA scaling (wt t) (tjac t)) ->
  exists k J0, In (k, (d, J0)) (cmap (tjac t)) /\ J = mmul RA (mindim d) (mscale RA (scaling d) (wt t)) J0.
Proof.
  intro H. unfold weighted in H. apply in_map_iff in H as ((k & d0 & J0) & E & HI).
  assert (d0 = d) by congruence. subst d0. exists k, J0. split; [exact HI | congruence].
Qed.

Lemma weighted_fits lay t : term_ok lay t -> fits lay (height t) (weighted RA scaling (wt t) (tjac t)).
Proof.
  intros T d J HI. pose proof (wt_shaped lay t T) as WS. destruct T as ((C1 & C2) & T2 & T3 & T4).
  apply weighted_in in HI as (k & J0 & HI & ->).
  rewrite Forall_forall in C2, T2. destruct (C2 _ HI) as (G1 & _ & G2). destruct (T2 _ HI) as (G3 & G4).
  cbn [fst snd] in *. unfold bo. conj.
  - lia.
  - lia.
  - now rewrite G1.
  - apply shaped_iff. split.
    + unfold mmul. rewrite map_length. apply mscale_shaped with (a := scaling d) in WS. now apply shaped_iff in WS as [L _].
    + apply Forall_forall. intros x Hx. unfold mmul in Hx. apply in_map_iff in Hx as (y & <- & _).
      now rewrite map_length, seq_length.
Qed.

Lemma weighted_keys lay t : term_ok lay t ->
  map (fun e : entry => block (fst e)) (weighted RA scaling (wt t) (tjac t)) = map fst (cmap (tjac t)).
Proof.
  intros ((_ & C2) & _). unfold weighted. rewrite map_map. apply map_ext_in.
  intros (k & d & J) HI. rewrite Forall_forall in C2. exact (proj1 (C2 _ HI)).
Qed.

Lemma weighted_sorted lay t : term_ok lay t -> lsorted (weighted RA scaling (wt t) (tjac t)).
Proof. intro T. unfold lsorted. rewrite (weighted_keys lay t T). apply T. Qed.

Lemma weighted_involves lay t b : term_ok lay t ->
  (exists e : entry, In e (weighted RA scaling (wt t) (tjac t)) /\ bo (fst e) = b) <-> involves t b.
Proof.
  intro T. unfold involves. rewrite <- (weighted_keys lay t T). rewrite in_map_iff. split.
  - intros ((d & J) & HI & E). exists (d, J). split; [ | exact HI].
    destruct (weighted_fits lay t T d J HI) as (G & _). unfold bo in E. cbn [fst] in *. lia.
  - intros ((d & J) & E & HI). exists (d, J). split; [exact HI | ]. unfold bo. rewrite E. apply Nat2Z.id.
Qed.

(** One term. *)
Lemma build_hessian_ok lay t (H : sbm RA) (rhs : list R) : layout lay -> term_ok lay t ->
  wf H -> owns H = true -> rbi H = lay -> cbi H = lay -> length rhs = total lay ->
  exists (H' : sbm RA) (rhs' : list R), build_hessian RA scaling useM t H rhs = Ok (H', rhs') /\
    wf H' /\ alike RA H' H /\ length rhs' = total lay /\
    (forall r i c j, r < length lay -> c < length lay -> i < size_of lay r -> j < size_of lay c ->
       val H' r i c j = (val H r i c j +
         (if (r <=? c)%nat then sumn (height t) (fun k => jent scaling useM t k r i * jent scaling useM t k c j) else 0))%R) /\
    (forall r i, r < length lay -> i < size_of lay r ->
       nth (base_of lay r + i) rhs' 0%R =
       (nth (base_of lay r + i)%nat rhs 0 - sumn (height t) (fun k => jent scaling useM t k r i * werr useM t k))%R) /\
    (forall r c, blk H' r c <> None <-> blk H r c <> None \/ (r <= c /\ involves t r /\ involves t c)).
Proof.
  intros LAY T W O ER EC LR.
  assert (LE : @length R (mvec RA (wt t) (eerror (tterm t))) = height t).
  { unfold mvec. rewrite map_length. pose proof (wt_shaped lay t T) as WS. now apply shaped_iff in WS as [L _]. }
  destruct (build_block_ok lay (height t) (mvec RA (wt t) (eerror (tterm t))) LAY LE
    (weighted RA scaling (wt t) (tjac t)) H rhs W O ER EC LR (weighted_fits lay t T) (weighted_sorted lay t T))
    as (H' & rhs' & E & W' & AL & L' & HV & HR & HB).
  exists H', rhs'. conj; [exact E | exact W' | exact AL | exact L' | | | ].
  - intros r i c j Hr Hc Hi Hj. rewrite (HV r i c j Hr Hc Hi Hj). f_equal.
    destruct (r <=? c); [ | reflexivity]. apply sumn_ext. intros k Hk.
    now rewrite (weighted_lj lay t k r i T Hk Hr Hi), (weighted_lj lay t k c j T Hk Hc Hj).
  - intros r i Hr Hi. rewrite (HR r i Hr Hi). f_equal. apply sumn_ext. intros k Hk.
    rewrite (weighted_lj lay t k r i T Hk Hr Hi). f_equal. exact (weighted_err lay t k T Hk).
  - intros r c. rewrite HB. now rewrite !(weighted_involves lay t _ T).
Qed.

(** ** All terms. *)
Lemma over_cons t ts f : over (t :: ts) f = (sumn (height t) (f t) + over ts f)%R.
Proof. reflexivity. Qed.

Lemma build_terms_ok lay ts : layout lay -> Forall (term_ok lay) ts -> forall (H : sbm RA) (rhs : list R),
  wf H -> owns H = true -> rbi H = lay -> cbi H = lay -> length rhs = total lay ->
  exists (H' : sbm RA) (rhs' : list R), build_terms RA scaling useM ts H rhs = Ok (H', rhs') /\
    wf H' /\ alike RA H' H /\ length rhs' = total lay /\
    (forall r i c j, r < length lay -> c < length lay -> i < size_of lay r -> j < size_of lay c ->
       val H' r i c j = (val H r i c j +
         (if (r <=? c)%nat then over ts (fun t k => jent scaling useM t k r i * jent scaling useM t k c j) else 0))%R) /\
    (forall r i, r < length lay -> i < size_of lay r ->
       nth (base_of lay r + i) rhs' 0%R =
       (nth (base_of lay r + i)%nat rhs 0 - over ts (fun t k => jent scaling useM t k r i * werr useM t k))%R) /\
    (forall r c, blk H' r c <> None <-> blk H r c <> None \/
       (r <= c /\ exists t, In t ts /\ involves t r /\ involves t c)).
Proof.
  intro LAY. induction ts as [ | t ts IH]; intros FT H rhs W O ER EC LR.
  - exists H, rhs. conj; [reflexivity | exact W | apply alike_refl | exact LR | | | ].
    + intros. unfold over. cbn [map rsum]. destruct (r <=? c); lra.
    + intros. unfold over. cbn [map rsum]. lra.
    + intros r c. split; [now left | intros [Q | (_ & t & [] & _)]; exact Q].
  - inversion_clear FT as [ | ? ? T1 T2].
    destruct (build_hessian_ok lay t H rhs LAY T1 W O ER EC LR) as (H1 & rhs1 & E1 & W1 & A1 & L1 & HV1 & HR1 & HB1).
    pose proof A1 as (A11 & A12 & A13 & A14).
    destruct (IH T2 H1 rhs1 W1) as (H' & rhs' & E & W' & AL & L' & HV & HR & HB); [congruence .. | ].
    exists H', rhs'. conj; [ | exact W' | eapply alike_trans; [exact AL | exact A1] | exact L' | | | ].
    + cbn [build_terms]. rewrite E1. cbn [obind fst snd]. exact E.
    + intros r i c j Hr Hc Hi Hj. rewrite (HV r i c j Hr Hc Hi Hj), (HV1 r i c j Hr Hc Hi Hj), over_cons.
      destruct (r <=? c); lra.
    + intros r i Hr Hi. rewrite (HR r i Hr Hi), (HR1 r i Hr Hi), over_cons. lra.
    + intros r c. rewrite HB, HB1. split.
      * intros [[Q | Q] | (Q & t0 & Q1 & Q2)]; [now left | right | right].
        -- split; [apply Q | ]. exists t. split; [now left | apply Q].
        -- split; [exact Q | ]. exists t0. split; [now right | exact Q2].
      * intros [Q | (Q & t0 & [<- | Q1] & Q2)]; [now left; left | left; right; tauto | right].
        split; [exact Q | ]. now exists t0.
Qed.

Lemma clear_pattern (m : sbm RA) r c : blk (clear RA false m) r c <> None <-> blk m r c <> None.
Proof.
  unfold clear. rewrite andb_false_r,  map_blocks_blk. destruct (blk m r c); cbn [option_map]; split; congruence.
Qed.

Lemma build_system_ok lay ts (H : sbm RA) (rhs : list R) : Forall (term_ok lay) ts ->
  wf H -> owns H = true -> rbi H = lay -> cbi H = lay -> length rhs = total lay ->
  exists (H' : sbm RA) (rhs' : list R), build_system RA scaling useM ts H rhs = Ok (H', rhs') /\
    wf H' /\ alike RA H' H /\ length rhs' = total lay /\
    (forall r i c j, r < length lay -> c < length lay -> i < size_of lay r -> j < size_of lay c ->
       val H' r i c j =
         (if (r <=? c)%nat then over ts (fun t k => jent scaling useM t k r i * jent scaling useM t k c j)%R else 0%R)) /\
    (forall r i, r < length lay -> i < size_of lay r ->
       nth (base_of lay r + i) rhs' 0%R =
       (- over ts (fun t k => jent scaling useM t k r i * werr useM t k))%R) /\
    (forall r c, blk H' r c <> None <-> blk H r c <> None \/
       (r <= c /\ exists t, In t ts /\ involves t r /\ involves t c)).
Proof.
  intros FT W O ER EC LR. pose proof (clear_alike RA false H) as (A1 & A2 & A3 & A4).
  assert (LAY : layout lay) by (rewrite <- ER; apply W).
  destruct (build_terms_ok lay ts LAY FT (clear RA false H) (map (fun _ => 0%R) rhs) (clear_wf RA false H W))
    as (H' & rhs' & E & W' & AL & L' & HV & HR & HB).
  { congruence. } { congruence. } { congruence. } { now rewrite map_length. }
  exists H', rhs'. conj; [exact E | exact W' | eapply alike_trans; [exact AL | apply clear_alike] | exact L' | | | ].
  - intros r i c j Hr Hc Hi Hj. rewrite (HV r i c j Hr Hc Hi Hj). unfold val at 1.
    rewrite (clear_val RA false H r i c j). change (of_Z RA 0) with 0%R. apply Rplus_0_l.
  - intros r i Hr Hi. rewrite (HR r i Hr Hi).
    assert (Z0 : forall k, nth k (map (fun _ : R => 0%R) rhs) 0%R = 0%R).
    { intro k. exact (map_nth (fun _ : R => 0%R) rhs 0%R k). }
    rewrite Z0. lra.
  - intros r c. rewrite HB. now rewrite clear_pattern.
Qed.
End Term.
