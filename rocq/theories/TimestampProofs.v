(** Lemmas about the timestamp corrector. *)
From Coq Require Import ZArith QArith Qfield List Lia Lqa Bool.
From Verif Require Import Base TimestampModel TimestampSpec.
Import ListNotations.
Open Scope Q_scope.

Lemma ltb_true a b : ltb a b = true <-> a < b.
Proof.
  unfold ltb. rewrite negb_true_iff. destruct (Qle_bool b a) eqn:E.
  - apply Qle_bool_iff in E. split; [discriminate|lra].
  - split; [|reflexivity]. intros _. apply Qnot_le_lt. intros H. apply Qle_bool_iff in H. congruence.
Qed.
Lemma ltb_false a b : ltb a b = false <-> b <= a.
Proof. unfold ltb. rewrite negb_false_iff. apply Qle_bool_iff. Qed.

Lemma above_true a b p : is_above_line a b p = true <-> 0 <= det a b p.
Proof. unfold is_above_line, det, px, py. apply Qle_bool_iff. Qed.
Lemma above_false a b p : is_above_line a b p = false <-> det a b p < 0.
Proof.
  destruct (is_above_line a b p) eqn:E.
  - apply above_true in E. split; [discriminate|lra].
  - split; [|reflexivity]. intros _. apply Qnot_le_lt. intros H. apply above_true in H. congruence.
Qed.

Lemma pos_cancel a d : 0 < d -> 0 <= a * d -> 0 <= a.
Proof. intros Hd H. nra. Qed.

Lemma det_swap a b c : det a b c == - det a c b.
Proof. unfold det. ring. Qed.

(** Left of [h1] the new segment runs below the old one. *)
Lemma det_left h2 h1 p q : px h2 < px h1 -> px h1 <= px p -> px q <= px h1 ->
  0 <= det h2 h1 q -> 0 <= det h2 h1 p -> 0 <= det h1 p q.
Proof.
  unfold px. intros. apply (pos_cancel _ (fst h1 - fst h2)); [lra|].
  assert (E : det h1 p q * (fst h1 - fst h2) == det h2 h1 q * (fst p - fst h1) + det h2 h1 p * (fst h1 - fst q))
    by (unfold det; ring).
  rewrite E. assert (0 <= det h2 h1 q * (fst p - fst h1)) by (apply Qmult_le_0_compat; lra).
  assert (0 <= det h2 h1 p * (fst h1 - fst q)) by (apply Qmult_le_0_compat; lra). lra.
Qed.

(** A point above the last segment of a convex chain is above the one before. *)
Lemma det_right t3 t2 t1 p : px t3 < px t2 -> px t2 < px t1 -> px t2 <= px p ->
  0 <= det t3 t2 t1 -> 0 <= det t2 t1 p -> 0 <= det t3 t2 p.
Proof.
  unfold px. intros. apply (pos_cancel _ (fst t1 - fst t2)); [lra|].
  assert (E : det t3 t2 p * (fst t1 - fst t2) == det t3 t2 t1 * (fst p - fst t2) + det t2 t1 p * (fst t2 - fst t3))
    by (unfold det; ring).
  rewrite E. assert (0 <= det t3 t2 t1 * (fst p - fst t2)) by (apply Qmult_le_0_compat; lra).
  assert (0 <= det t2 t1 p * (fst t2 - fst t3)) by (apply Qmult_le_0_compat; lra). lra.
Qed.

(** Popping [h1], which is above the line from [h2] to [p]. *)
Lemma det_pop_mid h2 h1 p q : px h2 < px h1 -> px h1 < px p -> px h2 <= px q ->
  0 <= det h2 p h1 -> 0 <= det h2 h1 q -> 0 <= det h2 p q.
Proof.
  unfold px. intros. apply (pos_cancel _ (fst h1 - fst h2)); [lra|].
  assert (E : det h2 p q * (fst h1 - fst h2) == det h2 h1 q * (fst p - fst h2) + det h2 p h1 * (fst q - fst h2))
    by (unfold det; ring).
  rewrite E. assert (0 <= det h2 h1 q * (fst p - fst h2)) by (apply Qmult_le_0_compat; lra).
  assert (0 <= det h2 p h1 * (fst q - fst h2)) by (apply Qmult_le_0_compat; lra). lra.
Qed.
Lemma det_pop_right h2 h1 p q : px h2 < px h1 -> px h1 < px p -> px q <= px p ->
  0 <= det h2 p h1 -> 0 <= det h1 p q -> 0 <= det h2 p q.
Proof.
  unfold px. intros. apply (pos_cancel _ (fst p - fst h1)); [lra|].
  assert (E : det h2 p q * (fst p - fst h1) == det h1 p q * (fst p - fst h2) + det h2 p h1 * (fst p - fst q))
    by (unfold det; ring).
  rewrite E. assert (0 <= det h1 p q * (fst p - fst h2)) by (apply Qmult_le_0_compat; lra).
  assert (0 <= det h2 p h1 * (fst p - fst q)) by (apply Qmult_le_0_compat; lra). lra.
Qed.

Lemma det_refl_r a b : det a b b == 0. Proof. unfold det. ring. Qed.
Lemma det_refl_l a b : det a b a == 0. Proof. unfold det. ring. Qed.

(** * The hull invariant (back of the vector first) *)
Fixpoint good (ins h : list point) : Prop :=
  match h with
  | [] => True
  | [t] => forall q, In q ins -> px t <= px q
  | t1 :: (t2 :: r) as h' =>
      px t2 < px t1 /\ (forall q, In q ins -> 0 <= det t2 t1 q) /\
      match r with t3 :: _ => 0 <= det t3 t2 t1 | [] => True end /\ good ins h'
  end.

Lemma good_add p ins r : forall t1 t2, good ins (t1 :: t2 :: r) -> px t1 < px p -> 0 <= det t2 t1 p ->
  good (p :: ins) (t1 :: t2 :: r).
Proof.
  induction r as [|t3 r IH]; intros t1 t2 G Hp Hd.
  - destruct G as (G1 & G2 & _ & G3). cbn [good] in *. split; [exact G1|]. split.
    { intros q [<-|Hq]; auto. } split; [exact I|]. intros q [<-|Hq]; [lra|auto].
  - assert (E : good ins (t1 :: t2 :: t3 :: r) = (px t2 < px t1 /\ (forall q, In q ins -> 0 <= det t2 t1 q) /\
       0 <= det t3 t2 t1 /\ good ins (t2 :: t3 :: r))) by reflexivity.
    rewrite E in G. destruct G as (G1 & G2 & G3 & G4).
    assert (G5 : px t3 < px t2) by apply G4.
    split; [exact G1|]. split; [intros q [<-|Hq]; auto|]. split; [exact G3|].
    apply IH; [exact G4|lra|]. apply (det_right t3 t2 t1 p); auto; lra.
Qed.

Lemma good_push_above p ins t1 t2 r : good ins (t1 :: t2 :: r) -> px t1 < px p -> 0 <= det t2 t1 p ->
  (forall q, In q ins -> px q <= px t1 \/ 0 <= det t1 p q) ->
  good (p :: ins) (p :: t1 :: t2 :: r).
Proof.
  intros G Hp Hd Hq. pose proof (good_add p ins r t1 t2 G Hp Hd) as G'.
  change (px t1 < px p /\ (forall q, In q (p :: ins) -> 0 <= det t1 p q) /\ 0 <= det t2 t1 p /\ good (p :: ins) (t1 :: t2 :: r)).
  destruct G as (G1 & G2 & _). split; [exact Hp|]. split; [|split; [exact Hd|exact G']].
  intros q [<-|Hin]; [rewrite det_refl_r; lra|].
  destruct (Hq q Hin) as [H|H]; [|exact H]. apply (det_left t2 t1 p q); auto; lra.
Qed.

Lemma good_pop p ins h : forall t1 r, h = t1 :: r -> good ins h ->
  px t1 < px p -> (forall q, In q ins -> px q < px p) ->
  (forall q, In q ins -> px q <= px t1 \/ 0 <= det t1 p q) ->
  (r = [] -> forall q, In q ins -> 0 <= det t1 p q) ->
  good (p :: ins) (p :: pop_loop h p).
Proof.
  induction h as [|x h IH]; intros t1 r E G Hp Hlt Hq Hone; [discriminate|].
  injection E as -> ->. destruct r as [|t2 r].
  - cbn [pop_loop good] in *. split; [exact Hp|]. split; [|split; [exact I|]].
    + intros q [<-|Hin]; [rewrite det_refl_r; lra|]. now apply Hone.
    + intros q [<-|Hin]; [lra|]. now apply G.
  - assert (GG := G). destruct GG as (G1 & G2 & G3 & G4).
    change (pop_loop (t1 :: t2 :: r) p) with (if is_above_line t2 p t1 then pop_loop (t2 :: r) p else t1 :: t2 :: r).
    destruct (is_above_line t2 p t1) eqn:Ea.
    + apply above_true in Ea. apply (IH t2 r); auto; [lra| |].
      * intros q Hin. destruct (Qlt_le_dec (px t2) (px q)) as [H|H]; [right|left; exact H].
        destruct (Hq q Hin) as [H'|H'].
        -- apply (det_pop_mid t2 t1 p q); auto; lra.
        -- apply (det_pop_right t2 t1 p q); auto. specialize (Hlt q Hin). lra.
      * intros -> q Hin. cbn [good] in G4. specialize (G4 q Hin).
        destruct (Hq q Hin) as [H'|H'].
        -- apply (det_pop_mid t2 t1 p q); auto; lra.
        -- apply (det_pop_right t2 t1 p q); auto. specialize (Hlt q Hin). lra.
    + apply above_false in Ea. apply good_push_above; auto. rewrite det_swap. lra.
Qed.

Lemma good_push p ins t1 r : good ins (t1 :: r) -> px t1 < px p ->
  (forall q, In q ins -> q = t1 \/ px q < px t1) -> good (p :: ins) (push (t1 :: r) p).
Proof.
  intros G Hp Ht. unfold push.
  assert (Hq : forall q, In q ins -> px q <= px t1 \/ 0 <= det t1 p q).
  { intros q Hin. left. destruct (Ht q Hin) as [-> | H]; lra. }
  destruct r as [|t2 r].
  - cbn [is_above_top_line good]. split; [exact Hp|]. split; [|split; [exact I|]].
    + intros q [<-|Hin]; [rewrite det_refl_r; lra|]. destruct (Ht q Hin) as [-> | H].
      * rewrite det_refl_l. lra.
      * cbn [good] in G. specialize (G q Hin). lra.
    + intros q [<-|Hin]; [lra|]. now apply G.
  - cbn [is_above_top_line]. destruct (is_above_line t2 t1 p) eqn:Ea.
    + apply above_true in Ea. now apply good_push_above.
    + apply (good_pop p ins _ t1 (t2 :: r)); auto; [|discriminate].
      intros q Hin. destruct (Ht q Hin) as [-> | H]; lra.
Qed.

(** * Subsequences *)
Lemma sub_refl l : sub l l. Proof. induction l; constructor; auto. Qed.
Lemma sub_tail x l m : sub (x :: l) m -> sub l m.
Proof.
  remember (x :: l) as k. induction 1; [discriminate| |]; constructor; auto.
  injection Heqk as -> ->. assumption.
Qed.
Lemma sub_pop p h : forall m, sub h m -> sub (pop_loop h p) m.
Proof.
  induction h as [|t1 [|t2 r] IH]; intros m H; try exact H.
  change (pop_loop (t1 :: t2 :: r) p) with (if is_above_line t2 p t1 then pop_loop (t2 :: r) p else t1 :: t2 :: r).
  destruct (is_above_line t2 p t1); [|exact H]. apply IH. eapply sub_tail; eauto.
Qed.
Lemma sub_push p h m : sub h m -> sub (push h p) (p :: m).
Proof. intros H. unfold push. constructor. destruct (is_above_top_line h p); [exact H|now apply sub_pop]. Qed.
Lemma sub_app a b c d : sub a b -> sub c d -> sub (a ++ c) (b ++ d).
Proof. intros H1 H2. induction H1; cbn; [exact H2| |]; constructor; auto. Qed.
Lemma sub_rev l m : sub l m -> sub (rev l) (rev m).
Proof.
  induction 1; cbn [rev]; [constructor| |].
  - apply sub_app; [assumption|apply sub_refl].
  - rewrite <- (app_nil_r (rev l)). apply sub_app; [assumption|]. constructor. constructor.
Qed.
Lemma sub_in l m : sub l m -> forall x, In x l -> In x m.
Proof. induction 1; cbn; intuition. Qed.

(** * Segments of the vector *)
Lemma good_segment ins h : good ins h -> forall l1 a b l2, h = l1 ++ b :: a :: l2 ->
  px a < px b /\ forall q, In q ins -> 0 <= det a b q.
Proof.
  induction h as [|t1 [|t2 r] IH]; intros G l1 a b l2 E.
  - destruct l1; discriminate.
  - destruct l1 as [|? [|]]; discriminate.
  - assert (G' := G). destruct G as (G1 & G2 & _ & G3).
    destruct l1 as [|y l1].
    + injection E as -> -> ->. auto.
    + injection E as -> E. eapply IH; eauto.
Qed.

Lemma rev_split {A} (h l1 l2 : list A) (a b : A) : rev h = l1 ++ a :: b :: l2 -> h = rev l2 ++ b :: a :: rev l1.
Proof.
  intros H. rewrite <- (rev_involutive h), H, rev_app_distr. cbn [rev]. rewrite <- !app_assoc. reflexivity.
Qed.

Lemma nth_segment {A} (v : list A) k a b : nth_error v k = Some a -> nth_error v (S k) = Some b ->
  exists l1 l2, v = l1 ++ a :: b :: l2.
Proof.
  intros H1 H2. apply nth_error_split in H1 as (l1 & l2 & -> & <-).
  rewrite nth_error_app2 in H2 by lia. replace (S (length l1) - length l1)%nat with 1%nat in H2 by lia.
  destruct l2 as [|c l2]; [discriminate|]. injection H2 as ->. eauto.
Qed.

(** * lower_bound *)
Lemma lower_bound_le v m : (lower_bound v m <= length v)%nat.
Proof. induction v; cbn; [lia|]. destruct (ltb _ _); lia. Qed.
Lemma lower_bound_lt v m : (exists a, In a v /\ m <= px a) -> (lower_bound v m < length v)%nat.
Proof.
  intros (a & Hin & Ha). induction v as [|b v IH]; [contradiction|]. cbn [lower_bound length].
  destruct (ltb (px b) m) eqn:E; [|lia]. destruct Hin as [-> | Hin].
  - apply ltb_true in E. lra.
  - specialize (IH Hin). lia.
Qed.
Lemma lower_bound_before v m : forall k a, (k < lower_bound v m)%nat -> nth_error v k = Some a -> px a < m.
Proof.
  induction v as [|b v IH]; intros [|k] a H Hn; cbn [lower_bound] in H; try discriminate Hn;
    destruct (ltb (px b) m) eqn:E; try lia.
  - injection Hn as <-. now apply ltb_true.
  - eapply IH; [|exact Hn]. lia.
Qed.
Lemma lower_bound_at v m : forall a, nth_error v (lower_bound v m) = Some a -> m <= px a.
Proof.
  induction v as [|b v IH]; intros a H; cbn [lower_bound] in H; [discriminate|].
  destruct (ltb (px b) m) eqn:E; [apply IH; exact H|].
  injection H as <-. now apply ltb_false.
Qed.

(** * The full invariant *)
Record Inv (c : corrector) (ins : list point) : Prop := {
  Igood : good ins (hull c);
  Isub : sub (hull c) ins;
  Itop : match hull c, ins with
         | [], [] => True
         | t :: _, u :: us => t = u /\ forall q, In q ins -> q = t \/ px q < px t
         | _, _ => False
         end;
  Imid : (3 <= length (hull c))%nat -> (S (mid c) < length (hull c))%nat
}.

Lemma Inv_fresh : Inv fresh [].
Proof. split; cbn; auto; try lia. constructor. Qed.

Lemma pop_loop_nonempty h p : h <> [] -> pop_loop h p <> [].
Proof.
  induction h as [|t1 [|t2 r] IH]; intros H; try contradiction; try discriminate.
  change (pop_loop (t1 :: t2 :: r) p) with (if is_above_line t2 p t1 then pop_loop (t2 :: r) p else t1 :: t2 :: r).
  destruct (is_above_line t2 p t1); [apply IH|]; discriminate.
Qed.

Lemma good_first ins h : good ins h -> forall f l, rev h = f :: l -> forall q, In q ins -> px f <= px q.
Proof.
  induction h as [|t1 [|t2 r] IH]; intros G f l E.
  - discriminate.
  - injection E as <- <-. exact G.
  - cbn [good] in G. destruct G as (_ & _ & _ & G).
    change (rev (t2 :: r) ++ [t1] = f :: l) in E.
    destruct (rev (t2 :: r)) as [|g l'] eqn:E'.
    + apply (f_equal (@length _)) in E'. rewrite rev_length in E'. discriminate.
    + cbn [app] in E. injection E as -> _. eapply IH; eauto.
Qed.

Definition last_x (c : corrector) : option Q := match hull c with [] => None | t :: _ => Some (px t) end.

Lemma correct_spec c ins remote local : Inv c ins ->
  (match last_x c with None => True | Some t => t < remote end ->
   exists c' v, correct c remote local = Ok (c', v) /\ Inv c' ((remote, local) :: ins) /\
     last_x c' = Some remote /\ v <= local /\
     ((3 <= length (hull c'))%nat -> exists a b, segment c' = Ok (a, b) /\ segment_of (rev (hull c')) a b /\
        v == line a b remote /\
        forall f, hd_error (rev (hull c')) = Some f -> px a < (px f + remote) / 2 /\ (px f + remote) / 2 <= px b)) /\
  (match last_x c with None => False | Some t => remote <= t end -> correct c remote local = Throw).
Proof.
  intros [G Sb T M]. split.
  2:{ intros H. unfold correct, last_x in *. destruct (hull c) as [|t h]; [contradiction|].
      apply ltb_false in H. now rewrite H. }
  intros Hok.
  set (p := (remote, local)). set (h := push (hull c) p).
  assert (Hokb : match hull c with [] => true | top :: _ => ltb (px top) remote end = true).
  { unfold last_x in Hok. destruct (hull c); [reflexivity|]. now apply ltb_true. }
  assert (G' : good (p :: ins) h).
  { unfold h. destruct (hull c) as [|t1 r] eqn:Eh.
    - destruct ins; [|contradiction]. change (forall q, In q [p] -> px p <= px q). intros q [<-|[]]. apply Qle_refl.
    - destruct ins as [|u us]; [contradiction|]. destruct T as [-> T]. apply good_push; auto.
      unfold last_x in Hok. rewrite Eh in Hok. exact Hok. }
  assert (S' : sub h (p :: ins)) by now apply sub_push.
  assert (Hh : exists hr, h = p :: hr) by (unfold h, push; eauto). destruct Hh as (hr & Hh).
  assert (T' : match h, p :: ins with
         | [], [] => True
         | t :: _, u :: us => t = u /\ forall q, In q (p :: ins) -> q = t \/ px q < px t
         | _, _ => False
         end).
  { rewrite Hh. split; [reflexivity|]. intros q [<-|Hin]; [auto|]. right.
    destruct (hull c) as [|t1 r] eqn:Eh; destruct ins as [|u us]; try contradiction.
    destruct T as [-> T]. unfold last_x in Hok. rewrite Eh in Hok. change (px u < remote) in Hok.
    destruct (T q Hin) as [-> | H]; [exact Hok|]. unfold p, px in *. cbn [fst]. lra. }
  unfold correct. rewrite Hokb. fold p. fold h.
  destruct (3 <=? length h)%nat eqn:E3.
  - apply Nat.leb_le in E3. unfold mid_index.
    destruct (rev h) as [|f v] eqn:Er.
    { apply (f_equal (@length _)) in Er. rewrite rev_length in Er. cbn in Er. lia. }
    set (m := (px f + remote) / 2).
    assert (Hlen : length (f :: v) = length h) by (rewrite <- Er; apply rev_length).
    assert (Hf : px f < remote).
    { (* f is not p, and x decreases along the hull *)
      assert (Er1 : rev hr ++ [p] = f :: v) by (rewrite <- Er, Hh; reflexivity). destruct (rev hr) as [|f' v'] eqn:Er'.
      - assert (E0 : hr = []) by (rewrite <- (rev_involutive hr), Er'; reflexivity). rewrite Hh, E0 in E3. cbn [length] in E3. lia.
      - cbn [app] in Er1. injection Er1 as -> _.
        assert (Hin : In f ins).
        { assert (Hinh : In f hr) by (apply in_rev; rewrite Er'; cbn; auto).
          assert (Hs : sub hr ins).
          { unfold h, push in Hh. injection Hh as <-. destruct (is_above_top_line (hull c) p); [exact Sb|now apply sub_pop]. }
          eapply sub_in; eauto. }
        rewrite Hh in T'. destruct T' as [_ T']. 
        destruct (hull c) as [|t1 r] eqn:Eh; destruct ins as [|u us]; try contradiction.
        destruct T as [-> T]. unfold last_x in Hok. rewrite Eh in Hok. change (px u < remote) in Hok.
        destruct (T f Hin) as [-> | H]; unfold px in *; lra. }
    assert (Hm : px f < m /\ m <= remote).
    { unfold m. split; [apply Qlt_shift_div_l; lra|apply Qle_shift_div_r; lra]. }
    assert (Hlt : (lower_bound (f :: v) m < length (f :: v))%nat).
    { apply lower_bound_lt. exists p. split; [|unfold p, px; cbn [fst]; lra].
      rewrite <- Er. apply in_rev. rewrite rev_involutive, Hh. cbn. auto. }
    destruct (lower_bound (f :: v) m) as [|k] eqn:Ek.
    { cbn [lower_bound] in Ek. destruct (ltb (px f) m) eqn:El; [discriminate|]. apply ltb_false in El. lra. }
    cbn [obind]. set (c' := Corrector h k).
    assert (Hn1 : exists a, nth_error (f :: v) k = Some a).
    { destruct (nth_error (f :: v) k) eqn:En; [eauto|]. apply nth_error_None in En. lia. }
    assert (Hn2 : exists b, nth_error (f :: v) (S k) = Some b).
    { destruct (nth_error (f :: v) (S k)) eqn:En; [eauto|]. apply nth_error_None in En. lia. }
    destruct Hn1 as (a & Ha). destruct Hn2 as (b & Hb).
    assert (Hseg : segment c' = Ok (a, b)).
    { unfold segment. cbn [hull mid c']. rewrite Er, Ha, Hb. reflexivity. }
    destruct (nth_segment _ _ _ _ Ha Hb) as (l1 & l2 & El).
    assert (Er2 := Er). rewrite El in Er2. apply rev_split in Er2.
    destruct (good_segment _ _ G' _ _ _ _ Er2) as [Hab Habove].
    assert (Hen : enough c' = true) by (unfold enough; cbn [hull c']; apply Nat.leb_le; lia).
    unfold get_local_time. rewrite Hen, Hseg. cbn [obind].
    eexists. eexists. split; [reflexivity|]. split; [|split; [|split]].
    + split; auto. intros _. cbn [hull mid c']. lia.
    + unfold last_x. cbn [hull c']. rewrite Hh. reflexivity.
    + specialize (Habove p (or_introl eq_refl)). unfold det, p in Habove. cbn [fst snd] in Habove. unfold px, py in *.
      apply Qle_minus_iff.
      assert (Ed : ~ fst b - fst a == 0) by lra.
      assert (E : local + - (snd a + (remote - fst a) * (snd b - snd a) / (fst b - fst a)) ==
                  ((fst b - fst a) * (local - snd a) - (snd b - snd a) * (remote - fst a)) / (fst b - fst a))
        by (field; exact Ed).
      rewrite E. apply Qle_shift_div_l; [lra|]. rewrite Qmult_0_l. exact Habove.
    + intros _. exists a, b. split; [exact Hseg|]. split.
      { exists l1, l2. cbn [hull c']. now rewrite Er, El. }
      split.
      { unfold line, px, py. field. unfold px in Hab. lra. }
      cbn [hull c']. rewrite Er. cbn [hd_error]. intros f' [= <-]. fold m. split.
      * eapply lower_bound_before; [|exact Ha]. rewrite Ek. lia.
      * apply (lower_bound_at (f :: v)). rewrite Ek. exact Hb.
  - apply Nat.leb_gt in E3. eexists. eexists. split; [reflexivity|]. split; [|split; [|split]].
    + split; auto. cbn [hull]. lia.
    + unfold last_x. cbn [hull]. rewrite Hh. reflexivity.
    + lra.
    + cbn [hull]. lia.
Qed.

Lemma feed_spec samples : forall c ins, Inv c ins ->
  exists c', feed c samples = Ok c' /\ Inv c' (rev (accepted_from (last_x c) samples) ++ ins).
Proof.
  induction samples as [|[x y] r IH]; intros c ins I; cbn [feed accepted_from].
  - exists c. split; [reflexivity|exact I].
  - destruct (correct_spec c ins x y I) as [Hok Hbad].
    destruct (last_x c) as [t|] eqn:El.
    + destruct (Qlt_le_dec t x) as [Hlt|Hle].
      * destruct (Hok Hlt) as (c' & v & E & I' & El' & _). rewrite E.
        destruct (IH c' _ I') as (c2 & E2 & I2). exists c2. split; [exact E2|]. rewrite El' in I2.
        cbn [rev]. rewrite <- app_assoc. exact I2.
      * rewrite (Hbad Hle). destruct (IH c _ I) as (c2 & E2 & I2). rewrite El in I2. eauto.
    + destruct (Hok Logic.I) as (c' & v & E & I' & El' & _). rewrite E.
      destruct (IH c' _ I') as (c2 & E2 & I2). exists c2. split; [exact E2|]. rewrite El' in I2.
      cbn [rev]. rewrite <- app_assoc. exact I2.
Qed.

Lemma fed samples : exists c, feed fresh samples = Ok c /\ Inv c (rev (accepted samples)).
Proof.
  destruct (feed_spec samples fresh [] Inv_fresh) as (c & E & I). exists c. split; [exact E|].
  rewrite app_nil_r in I. exact I.
Qed.

(** * From determinants to lines *)
Lemma det_line a b q : fst a < fst b -> 0 <= det a b q -> line a b (fst q) <= snd q.
Proof.
  intros Hab H. apply Qle_minus_iff. unfold line, det in *.
  assert (E : snd q + - (snd a + (fst q - fst a) * ((snd b - snd a) / (fst b - fst a))) ==
     ((fst b - fst a) * (snd q - snd a) - (snd b - snd a) * (fst q - fst a)) / (fst b - fst a)) by (field; lra).
  rewrite E. apply Qle_shift_div_l; [lra|]. rewrite Qmult_0_l. exact H.
Qed.

Lemma det_slopes a b c : fst a < fst b -> fst b < fst c -> 0 <= det a b c ->
  (snd b - snd a) / (fst b - fst a) <= (snd c - snd b) / (fst c - fst b).
Proof.
  intros H1 H2 H. apply Qle_minus_iff. unfold det in H.
  assert (E : (snd c - snd b) / (fst c - fst b) + - ((snd b - snd a) / (fst b - fst a)) ==
     (((fst b - fst a) * (snd c - snd a) - (snd b - snd a) * (fst c - fst a)) / (fst b - fst a)) / (fst c - fst b))
    by (field; split; lra).
  rewrite E. apply Qle_shift_div_l; [lra|]. rewrite Qmult_0_l.
  apply Qle_shift_div_l; [lra|]. rewrite Qmult_0_l. exact H.
Qed.

Lemma Inv_segment c acc a b : Inv c (rev acc) -> segment_of (rev (hull c)) a b ->
  fst a < fst b /\ forall q, In q acc -> line a b (fst q) <= snd q.
Proof.
  intros I (l1 & l2 & E). apply rev_split in E.
  destruct (good_segment _ _ (Igood _ _ I) _ _ _ _ E) as [H1 H2]. split; [exact H1|].
  intros q Hq. apply det_line; [exact H1|]. apply H2. now apply in_rev in Hq.
Qed.

Lemma Inv_corner c acc a b d : Inv c (rev acc) -> corner_of (rev (hull c)) a b d ->
  (snd b - snd a) / (fst b - fst a) <= (snd d - snd b) / (fst d - fst b).
Proof.
  intros I (l1 & l2 & E).
  assert (E1 := E). apply rev_split in E1.
  assert (E2 : rev (hull c) = (l1 ++ [a]) ++ b :: d :: l2) by (rewrite <- app_assoc; exact E). apply rev_split in E2.
  destruct (good_segment _ _ (Igood _ _ I) _ _ _ _ E1) as [H1 H2].
  destruct (good_segment _ _ (Igood _ _ I) _ _ _ _ E2) as [H3 H4].
  apply det_slopes; auto. apply H2. apply (sub_in _ _ (Isub _ _ I)).
  rewrite E2, in_app_iff. right. left. reflexivity.
Qed.

Lemma Inv_span c acc f l : Inv c (rev acc) -> hd_error (rev (hull c)) = Some f -> hd_error (hull c) = Some l ->
  forall q, In q acc -> fst f <= fst q <= fst l.
Proof.
  intros I Hf Hl q Hq. rewrite in_rev in Hq. split.
  - destruct (rev (hull c)) as [|f' v] eqn:E; [discriminate|]. injection Hf as ->.
    exact (good_first _ _ (Igood _ _ I) _ _ E q Hq).
  - pose proof (Itop _ _ I) as T. destruct (hull c) as [|t h]; [discriminate|]. injection Hl as ->.
    destruct (rev acc) as [|u us]; [contradiction|]. destruct T as [-> T].
    destruct (T q Hq) as [-> | H]; [apply Qle_refl|]. apply Qlt_le_weak. exact H.
Qed.

Lemma Inv_last_x c acc t : Inv c (rev acc) -> last_x c = Some t ->
  (exists q, In q acc /\ fst q = t) /\ forall q, In q acc -> fst q <= t.
Proof.
  intros I E. unfold last_x in E. pose proof (Itop _ _ I) as T. pose proof (Isub _ _ I) as Sb.
  destruct (hull c) as [|p h] eqn:Eh; [discriminate|]. injection E as <-.
  split.
  - exists p. split; [|reflexivity]. apply in_rev. apply (sub_in _ _ Sb). left. reflexivity.
  - intros q Hq. apply (Inv_span c acc) with (f := hd (0, 0) (rev (hull c))) (l := p); auto.
    + rewrite Eh. destruct (rev (p :: h)) eqn:Er; [|reflexivity].
      apply (f_equal (@length _)) in Er. rewrite rev_length in Er. discriminate.
    + now rewrite Eh.
Qed.

Lemma Inv_last_none c acc : Inv c (rev acc) -> last_x c = None -> acc = [].
Proof.
  intros I E. unfold last_x in E. pose proof (Itop _ _ I) as T. destruct (hull c); [|discriminate].
  destruct (rev acc) eqn:Er; [|contradiction]. now rewrite <- (rev_involutive acc), Er.
Qed.

Lemma correct_short c x y c' v : correct c x y = Ok (c', v) -> (length (hull c') < 3)%nat -> v = y.
Proof.
  unfold correct. destruct (match hull c with [] => true | top :: _ => ltb (px top) x end); [|discriminate].
  destruct (3 <=? length (push (hull c) (x, y)))%nat eqn:E.
  - destruct (mid_index _ x); cbn [obind]; try discriminate.
    destruct (get_local_time _ x); cbn [obind]; try discriminate.
    intros [= <- <-]. cbn [hull]. apply Nat.leb_le in E. lia.
  - intros [= <- <-] _. reflexivity.
Qed.

Lemma Inv_segment_ok c acc : Inv c acc -> (3 <= length (hull c))%nat -> exists a b,
  segment c = Ok (a, b) /\ segment_of (rev (hull c)) a b /\ enough c = true.
Proof.
  intros I H. pose proof (Imid _ _ I H) as M. unfold segment, enough.
  destruct (nth_error (rev (hull c)) (mid c)) as [a|] eqn:Ea.
  2:{ apply nth_error_None in Ea. rewrite rev_length in Ea. lia. }
  destruct (nth_error (rev (hull c)) (S (mid c))) as [b|] eqn:Eb.
  2:{ apply nth_error_None in Eb. rewrite rev_length in Eb. lia. }
  exists a, b. split; [reflexivity|]. split; [|apply Nat.leb_le; lia].
  destruct (nth_segment _ _ _ _ Ea Eb) as (l1 & l2 & E). exists l1, l2. exact E.
Qed.
