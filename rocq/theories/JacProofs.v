From Coq Require Import ZArith List Bool Lia Sorted.
From Verif Require Import Base Arith OMap JacModel JacSpec.
Import ListNotations.

Section P.
Variable A : Arith.
Notation entry := (Z * (dvref * mat A))%type.
Notation zget := (mget Z.compare).
Notation zput := (mput Z.compare).
Notation zsorted := (sorted Z.compare).

Lemma sorted_iff {V} (m : list (Z * V)) :
  zsorted m <-> StronglySorted Z.lt (map fst m).
Proof.
  induction m as [ | [k v] m IH]; cbn [sorted map fst].
  - split; [constructor | easy].
  - split.
    + intros (H1 & H2). constructor; [now apply IH | ].
      apply Forall_forall. intros x Hx. apply in_map_iff in Hx.
      destruct Hx as ((k' & v') & <- & Hin).
      assert (S := sorted_above_all _ Zcompare_order k v m (conj H1 H2) k' v' Hin).
      exact S.
    + intro H. inversion_clear H. split; [ | now apply IH].
      destruct m as [ | [k' v'] m]; [exact I | ].
      cbn [above map fst] in *. inversion_clear H1. exact H.
Qed.

Lemma zget_put {V} k k' (v : V) m :
  zget k (zput k' v m) = if Z.eqb k k' then Some v else zget k m.
Proof.
  destruct (Z.eqb_spec k k') as [-> | N].
  - apply mget_put_same, Zcompare_order.
  - apply mget_put_other; [apply Zcompare_order | exact N].
Qed.

Lemma zput_sorted {V} k (v : V) m : zsorted m -> zsorted (zput k v m).
Proof. apply mput_sorted, Zcompare_order. Qed.

Lemma minsert_get {V} k k' (v : V) m :
  zget k (minsert k' v m) =
  if Z.eqb k k' then match zget k m with Some w => Some w | None => Some v end
  else zget k m.
Proof.
  unfold minsert, mhas. destruct (zget k' m) eqn:E.
  - destruct (Z.eqb_spec k k') as [-> | N]; [now rewrite E | reflexivity].
  - rewrite zget_put. destruct (Z.eqb_spec k k') as [-> | N]; [ | reflexivity].
    now rewrite E.
Qed.

Lemma minsert_sorted {V} k (v : V) m : zsorted m -> zsorted (minsert k v m).
Proof. intro H. unfold minsert. destruct (mhas _ k m); [exact H | now apply zput_sorted]. Qed.

Lemma next_spec {V} k (m : list (Z * V)) : zsorted m ->
  match next k m with
  | None => forall x, k < x -> zget x m = None
  | Some k' => k < k' /\ zget k' m <> None /\
               forall x, k < x < k' -> zget x m = None
  end.
Proof.
  induction m as [ | [k' v] m IH]; cbn [next].
  { intros _ x _. reflexivity. }
  intros (H1 & H2). specialize (IH H2). destruct (Z.ltb_spec k k').
  - split; [assumption | ]. cbn [mget]. split.
    + rewrite Z.compare_refl. discriminate.
    + intros x (_ & L). apply Z.compare_lt_iff in L. now rewrite L.
  - destruct (next k m) as [k2 | ].
    + destruct IH as (I1 & I2 & I3). split; [exact I1 | ]. cbn [mget]. split.
      * destruct (Z.compare_spec k2 k'); [lia | lia | exact I2].
      * intros x Hx. destruct (Z.compare_spec x k'); [lia | lia | now apply I3].
    + intros x Hx. cbn [mget]. destruct (Z.compare_spec x k'); [lia | lia | now apply IH].
Qed.

(** entrywise sum of two maps; the left design variable stays *)
Definition both (a b : option (dvref * mat A)) : option (dvref * mat A) :=
  match a, b with
  | Some (d, x), Some (_, y) => Some (d, madd A x y)
  | Some x, None => Some x
  | None, y => y
  end.

Lemma keys_get (m : list entry) x : zsorted m ->
  (zget x m <> None <-> In x (map fst m)).
Proof. apply mget_in_keys, Zcompare_order. Qed.

(** [forward] *)
Lemma forward_spec k : forall rt m rt1 m1,
  zsorted rt -> zsorted m -> forward A k rt m = (rt1, m1) ->
  zsorted m1 /\ zsorted rt1 /\
  (forall x, zget x rt1 = if Z.ltb x k then None else zget x rt) /\
  (forall x, zget x m1 =
     if Z.ltb x k then match zget x m with Some w => Some w | None => zget x rt end
     else zget x m).
Proof.
  induction rt as [ | [kr v] rt IH]; intros m rt1 m1 Sr Sm H; cbn [forward] in H.
  - injection H as <- <-. split; [assumption | split; [exact I | split]].
    + intro x. now destruct (Z.ltb x k).
    + intro x. destruct (Z.ltb x k); [ | reflexivity]. now destruct (zget x m).
  - destruct (Z.ltb_spec kr k).
    + destruct Sr as (Sa & Sr).
      apply IH in H; [ | exact Sr | now apply minsert_sorted].
      destruct H as (H1 & H2 & H3 & H4).
      split; [exact H1 | split; [exact H2 | split]].
      * intro x. rewrite H3. destruct (Z.ltb_spec x k); [reflexivity | ].
        cbn [mget]. destruct (Z.compare_spec x kr); [lia | lia | reflexivity].
      * intro x. rewrite H4, minsert_get. destruct (Z.ltb_spec x k).
        -- cbn [mget]. destruct (Z.eqb_spec x kr) as [-> | N].
           ++ rewrite Z.compare_refl. now destruct (zget kr m).
           ++ destruct (zget x m); [reflexivity | ].
              destruct (Z.compare_spec x kr); [lia | | reflexivity].
              apply above_get with (cmp := Z.compare); [exact Sr | ].
              apply above_trans with kr; [apply Zcompare_order | | exact Sa].
              now apply Z.compare_lt_iff.
        -- destruct (Z.eqb_spec x kr); [lia | reflexivity].
    + injection H as <- <-. split; [assumption | split; [assumption | split]].
      * intro x. destruct (Z.ltb_spec x k); [ | reflexivity].
        cbn [mget]. destruct (Z.compare_spec x kr); [lia | reflexivity | lia].
      * intro x. destruct (Z.ltb_spec x k); [ | reflexivity].
        destruct (zget x m); [reflexivity | ].
        cbn [mget]. destruct (Z.compare_spec x kr); [lia | reflexivity | lia].
Qed.

Lemma fold_insert_spec : forall rt m, zsorted rt -> zsorted m ->
  let m' := fold_left (fun (m : list entry) e => minsert (fst e) (snd e) m) rt m in
  zsorted m' /\
  forall x, zget x m' = match zget x m with Some w => Some w | None => zget x rt end.
Proof.
  induction rt as [ | [kr v] rt IH]; intros m Sr Sm; cbn [fold_left].
  - split; [assumption | ]. intro x. now destruct (zget x m).
  - destruct Sr as (Sa & Sr).
    specialize (IH (minsert kr v m) Sr (minsert_sorted _ _ _ Sm)).
    cbn [fst snd]. destruct IH as (I1 & I2). split; [exact I1 | ].
    intro x. rewrite I2, minsert_get. cbn [mget].
    destruct (Z.eqb_spec x kr) as [-> | N].
    + rewrite Z.compare_refl. now destruct (zget kr m).
    + destruct (zget x m); [reflexivity | ].
      destruct (Z.compare_spec x kr); [lia | | reflexivity].
      apply above_get with (cmp := Z.compare); [exact Sr | ].
      apply above_trans with kr; [apply Zcompare_order | | exact Sa].
      now apply Z.compare_lt_iff.
Qed.

(** The loop invariant. [k]: key at the left iterator. *)
Section Loop.
Variables l r : list entry.
Hypothesis Sl : zsorted l.
Hypothesis Sr : zsorted r.
Hypothesis Fit : forall x d J d' J', zget x l = Some (d, J) ->
  zget x r = Some (d', J') -> same_shape A J J' = true.

Definition inv (k : option Z) (rt m : list entry) : Prop :=
  zsorted rt /\ zsorted m /\
  (forall x, match k with
             | Some k => x < k
             | None => True end ->
     zget x m = (match zget x l, zget x rt with
                 | None, Some _ => None
                 | _, _ => both (zget x l) (zget x r) end)) /\
  (forall x, match k with Some k => k <= x | None => False end ->
     zget x m = zget x l /\ zget x rt = zget x r) /\
  (forall x, zget x rt <> None -> zget x rt = zget x r).

Definition keys_from (k : option Z) : nat :=
  match k with
  | None => 0
  | Some k => length (filter (fun e => Z.leb k (fst e)) l)
  end.

Lemma filter_shrinks k k' : k < k' -> zget k l <> None ->
  (keys_from (Some k') < keys_from (Some k))%nat.
Proof.
  intros H HN. cbn [keys_from].
  destruct (zget k l) as [v | ] eqn:E; [ | congruence].
  apply (mget_in _ Zcompare_order) in E; [ | exact Sl]. clear HN Sl Fit.
  assert (G : forall m : list entry,
    (length (filter (fun e => Z.leb k' (fst e)) m) <=
     length (filter (fun e => Z.leb k (fst e)) m))%nat).
  { induction m as [ | a m IH]; cbn [filter]; [lia | ].
    destruct (Z.leb_spec k' (fst a)), (Z.leb_spec k (fst a)); cbn [length]; lia. }
  induction l as [ | a m IH]; [contradiction | ].
  cbn [filter]. destruct E as [-> | E].
  - cbn [fst]. rewrite Z.leb_refl.
    destruct (Z.leb_spec k' k); [lia | ]. cbn [length]. specialize (G m). lia.
  - specialize (IH E).
    destruct (Z.leb_spec k' (fst a)), (Z.leb_spec k (fst a)); cbn [length]; lia.
Qed.

Lemma loop_spec : forall fuel k rt m,
  inv k rt m -> (keys_from k <= fuel)%nat ->
  match k with Some k => zget k l <> None | None => True end ->
  exists m', add_loop A fuel k rt m = Ok m' /\ zsorted m' /\
             forall x, zget x m' = both (zget x l) (zget x r).
Proof.
  induction fuel as [ | fuel IH]; intros k rt m (I1 & I2 & I3 & I4 & I5) Hf Hk.
  - destruct k as [k | ].
    + exfalso. cbn [keys_from] in Hf.
      destruct (zget k l) as [v | ] eqn:E; [ | congruence].
      apply (mget_in _ Zcompare_order) in E; [ | exact Sl].
      assert (X : In (k, v) (filter (fun e => Z.leb k (fst e)) l))
        by (apply filter_In; cbn [fst]; rewrite Z.leb_refl; auto).
      destruct (filter _ l); [contradiction | cbn [length] in Hf; lia].
    + cbn [add_loop]. eexists. split; [reflexivity | ].
      destruct (fold_insert_spec rt m I1 I2) as (F1 & F2). split; [exact F1 | ].
      intro x. rewrite F2, (I3 x I).
      destruct (zget x rt) as [v | ] eqn:Er.
      * assert (E5 := I5 x). rewrite Er in E5. rewrite <- E5 by discriminate.
        destruct (zget x l) as [[d y] | ]; cbn [both]; [destruct v | ]; reflexivity.
      * destruct (zget x l) as [[d y] | ], (zget x r) as [[d' y'] | ]; cbn [both];
          reflexivity.
  - destruct k as [k | ].
    2:{ cbn [add_loop]. eexists. split; [reflexivity | ].
      destruct (fold_insert_spec rt m I1 I2) as (F1 & F2). split; [exact F1 | ].
      intro x. rewrite F2, (I3 x I).
      destruct (zget x rt) as [v | ] eqn:Er.
      * assert (E5 := I5 x). rewrite Er in E5. rewrite <- E5 by discriminate.
        destruct (zget x l) as [[d y] | ]; cbn [both]; [destruct v | ]; reflexivity.
      * destruct (zget x l) as [[d y] | ], (zget x r) as [[d' y'] | ]; cbn [both];
          reflexivity. }
    destruct rt as [ | e0 rt0].
    { cbn [add_loop]. exists m. split; [reflexivity | split; [exact I2 | ]].
      intro x. destruct (Z.ltb_spec x k).
      - rewrite (I3 x H). cbn [mget]. now destruct (zget x l).
      - destruct (I4 x H) as (-> & E). rewrite <- E. cbn [mget].
        destruct (zget x l) as [[? ?] | ]; reflexivity. }
    set (rt := e0 :: rt0) in *.
    assert (U : add_loop A (S fuel) (Some k) rt m =
      let '(rt1, m1) := forward A k rt m in
      match rt1 with
      | [] => Ok m1
      | (kr, (_, J)) :: _ =>
          do m2 <-
            (if Z.eqb kr k then
               match mget Z.compare k m1 with
               | Some (d0, J0) =>
                   do J1 <- maddo A J0 J;
                   Ok (mput Z.compare k (d0, J1) m1)
               | None => Ok m1
               end
             else Ok m1);
          add_loop A fuel (next k m2) rt1 m2
      end) by reflexivity.
    rewrite U. clear U.
    destruct (forward A k rt m) as [rt1 m1] eqn:EF.
    apply forward_spec in EF; [ | exact I1 | exact I2].
    destruct EF as (F1 & F2 & F3 & F4).
    assert (B : forall x, x < k -> zget x m1 = both (zget x l) (zget x r)).
    { intros x Hx. rewrite F4. destruct (Z.ltb_spec x k); [ | lia].
      rewrite (I3 x Hx). destruct (zget x rt) as [v | ] eqn:Er.
      - assert (E5 := I5 x). rewrite Er in E5. rewrite <- E5 by discriminate.
        destruct (zget x l) as [[d y] | ]; cbn [both]; [destruct v | ]; reflexivity.
      - destruct (zget x l) as [[d y] | ], (zget x r) as [[d' y'] | ]; cbn [both];
          reflexivity. }
    assert (C : forall x, k <= x -> zget x m1 = zget x l /\ zget x rt1 = zget x r).
    { intros x Hx. rewrite F4, F3. destruct (Z.ltb_spec x k); [lia | ].
      exact (I4 x Hx). }
    destruct rt1 as [ | [kr [dr J]] rt2].
    { exists m1. split; [reflexivity | split; [exact F1 | ]].
      intro x. destruct (Z.ltb_spec x k) as [L | L]; [exact (B x L) | ].
      destruct (C x L) as (-> & E). rewrite <- E. cbn [mget].
      destruct (zget x l) as [[? ?] | ]; reflexivity. }
    assert (Ek : k <= kr).
    { assert (X := F3 kr). cbn [mget] in X. rewrite Z.compare_refl in X.
      destruct (Z.ltb_spec kr k); [discriminate X | lia]. }
    assert (M2 : exists m2,
      (if Z.eqb kr k then
         match mget Z.compare k m1 with
         | Some (d0, J0) =>
             do J1 <- maddo A J0 J;
             Ok (mput Z.compare k (d0, J1) m1)
         | None => Ok m1
         end
       else Ok m1) = Ok m2 /\ zsorted m2 /\
      forall x, zget x m2 = if Z.eqb x k then both (zget k l) (zget k r) else zget x m1).
    { assert (Hk1 : zget k m1 = zget k l) by (apply C; lia).
      assert (Hr1 : zget k r = if Z.eqb kr k then Some (dr, J) else None).
      { destruct (C k (Z.le_refl k)) as (_ & <-). cbn [mget].
        destruct (Z.eqb_spec kr k) as [-> | N]; [now rewrite Z.compare_refl | ].
        assert (L : k < kr) by lia. apply Z.compare_lt_iff in L. now rewrite L. }
      destruct (Z.eqb_spec kr k) as [-> | N].
      - rewrite Hk1. destruct (zget k l) as [[d0 J0] | ] eqn:El; [ | congruence].
        unfold maddo. rewrite (Fit k d0 J0 dr J El Hr1). cbn [obind].
        eexists. split; [reflexivity | ].
        split; [now apply zput_sorted | ]. intro x. rewrite zget_put.
        destruct (Z.eqb_spec x k) as [-> | Nx]; [ | reflexivity].
        rewrite Hr1. reflexivity.
      - eexists. split; [reflexivity | ].
        split; [exact F1 | ]. intro x. destruct (Z.eqb_spec x k) as [-> | Nx];
          [ | reflexivity]. rewrite Hk1, Hr1.
        destruct (zget k l) as [[? ?] | ]; reflexivity. }
    destruct M2 as (m2 & EM & S2 & G2). rewrite EM. cbn [obind]. clear EM.
    assert (N := next_spec k m2 S2).
    assert (G3 : forall x, k < x -> zget x m2 = zget x l).
    { intros x Hx. rewrite G2. destruct (Z.eqb_spec x k); [lia | ].
      apply C. lia. }
    assert (G4 : forall x, x <= k -> zget x m2 = both (zget x l) (zget x r)).
    { intros x Hx. rewrite G2. destruct (Z.eqb_spec x k) as [-> | ]; [reflexivity | ].
      apply B. lia. }
    assert (Hrest : forall x, zget x ((kr, (dr, J)) :: rt2) <> None ->
                              zget x ((kr, (dr, J)) :: rt2) = zget x r).
    { intros x Hx. destruct (Z.ltb_spec x k).
      - exfalso. apply Hx. rewrite F3. destruct (Z.ltb_spec x k); [reflexivity | lia].
      - apply C. lia. }
    assert (Low : forall x, x < k -> zget x ((kr, (dr, J)) :: rt2) = None).
    { intros x Hx. rewrite F3. destruct (Z.ltb_spec x k); [reflexivity | lia]. }
    apply IH.
    + split; [exact F2 | split; [exact S2 | split; [ | split; [ | exact Hrest]]]].
      * intros x Hx. destruct (Z.le_gt_cases x k) as [L | L].
        -- rewrite (G4 x L). destruct (Z.eq_dec x k) as [-> | Nx].
           ++ destruct (zget k l) as [[? ?] | ] eqn:El; [ | congruence]. reflexivity.
           ++ rewrite (Low x) by lia. now destruct (zget x l).
        -- assert (E : zget x m2 = None).
           { destruct (next k m2) as [k' | ]; [apply N; lia | apply N; lia]. }
           rewrite E. rewrite <- (G3 x) by lia. rewrite E.
           destruct (C x) as (_ & <-); [lia | ].
           destruct (zget x ((kr, (dr, J)) :: rt2)); reflexivity.
      * intros x Hx. destruct (next k m2) as [k' | ]; [ | contradiction].
        destruct N as (N1 & _). split; [apply G3; lia | apply C; lia].
    + destruct (next k m2) as [k' | ]; [ | cbn; lia].
      destruct N as (N1 & _).
      assert (X := filter_shrinks k k' N1 Hk). lia.
    + destruct (next k m2) as [k' | ]; [ | exact I].
      destruct N as (N1 & N2 & _). rewrite <- G3 by lia. exact N2.
Qed.
End Loop.

Lemma filter_le {V} (f : V -> bool) l : (length (filter f l) <= length l)%nat.
Proof.
  induction l as [ | a l IH]; [reflexivity | ].
  cbn [filter]. destruct (f a); cbn [length]; lia.
Qed.

Lemma add_all_spec (rhs c : container A) :
  zsorted (cmap c) -> zsorted (cmap rhs) -> crows c = crows rhs ->
  (forall x d J d' J', zget x (cmap c) = Some (d, J) ->
     zget x (cmap rhs) = Some (d', J') -> same_shape A J J' = true) ->
  exists c', add_all A rhs c = Ok c' /\ crows c' = crows c /\ zsorted (cmap c') /\
    forall x, zget x (cmap c') = both (zget x (cmap c)) (zget x (cmap rhs)).
Proof.
  intros S1 S2 HR Fit. unfold add_all. rewrite HR, Nat.eqb_refl.
  edestruct (loop_spec (cmap c) (cmap rhs) S1 Fit (S (length (cmap c)))
               (match cmap c with [] => None | (k, _) :: _ => Some k end)
               (cmap rhs) (cmap c)) as (m' & E & E1 & E2).
  - split; [exact S2 | split; [exact S1 | ]].
    destruct (cmap c) as [ | [k v] m] eqn:Ec.
    + split; [ | split; [contradiction | reflexivity]].
      intros x _. cbn [mget]. destruct (zget x (cmap rhs)); reflexivity.
    + split; [ | split; [split; reflexivity | reflexivity]].
      intros x Hx. assert (X : zget x ((k, v) :: m) = None).
      { cbn [mget]. apply Z.compare_lt_iff in Hx. now rewrite Hx. }
      rewrite X. destruct (zget x (cmap rhs)); reflexivity.
  - destruct (cmap c) as [ | [k v] m]; cbn [keys_from]; [lia | ].
    etransitivity; [apply filter_le | lia].
  - destruct (cmap c) as [ | [k v] m]; [exact I | ].
    cbn [mget]. rewrite Z.compare_refl. discriminate.
  - rewrite E. cbn [obind]. eexists. split; [reflexivity | ].
    cbn [crows cmap]. auto.
Qed.

Lemma forallb_length (c : nat) (m : mat A) :
  forallb (fun row => Nat.eqb (length row) c) m = true <->
  Forall (fun row => length row = c) m.
Proof.
  rewrite forallb_forall, Forall_forall. split; intros H x Hx;
    specialize (H x Hx); now apply Nat.eqb_eq.
Qed.

Lemma shaped_iff r c m : shaped A r c m = true <->
  length m = r /\ Forall (fun row => length row = c) m.
Proof.
  unfold shaped. rewrite andb_true_iff, Nat.eqb_eq, forallb_length. reflexivity.
Qed.

Lemma madd_shaped r c a b :
  shaped A r c a = true -> shaped A r c b = true -> shaped A r c (madd A a b) = true.
Proof.
  rewrite !shaped_iff. intros (H1 & H2) (H3 & H4). unfold madd. split.
  - rewrite map_length, combine_length. lia.
  - rewrite Forall_forall in *. intros row Hr. apply in_map_iff in Hr.
    destruct Hr as ((x & y) & <- & Hin). cbn [fst snd].
    unfold vadd. rewrite map_length, combine_length.
    rewrite (H2 x), (H4 y); [lia | eapply in_combine_r; exact Hin
                            | eapply in_combine_l; exact Hin].
Qed.

Lemma mmul_shaped n M b : shaped A (length M) n (mmul A n M b) = true.
Proof.
  apply shaped_iff. unfold mmul. rewrite map_length. split; [reflexivity | ].
  apply Forall_forall. intros row Hr. apply in_map_iff in Hr.
  destruct Hr as (x & <- & _). now rewrite map_length, seq_length.
Qed.

Lemma entries_get (P : Z -> dvref * mat A -> Prop) (m : list entry) : zsorted m ->
  (Forall (fun e => P (fst e) (snd e)) m <->
   forall x v, zget x m = Some v -> P x v).
Proof.
  intro S. rewrite Forall_forall. split.
  - intros H x v E. apply (mget_in _ Zcompare_order) in E; [ | exact S].
    exact (H (x, v) E).
  - intros H [x v] Hin. apply H. now apply (mget_in _ Zcompare_order).
Qed.

Lemma zget_map {V W} (f : V -> W) x (m : list (Z * V)) :
  zget x (map (fun e => (fst e, f (snd e))) m) = option_map f (zget x m).
Proof.
  induction m as [ | [k v] m IH]; [reflexivity | ].
  cbn [map mget fst snd]. now destruct (Z.compare x k).
Qed.

Lemma sorted_map {V W} (f : V -> W) (m : list (Z * V)) :
  zsorted m -> zsorted (map (fun e => (fst e, f (snd e))) m).
Proof.
  rewrite !sorted_iff, map_map. cbn [fst]. intro H; exact H.
Qed.

End P.

(** Single operations. *)
Section Ops.
Variable A : Arith.
Variable lay : Z -> nat.
Notation zget := (mget Z.compare).
Notation zsorted := (sorted Z.compare).

Definition good (c : container A) : Prop := container_ok c /\ laid_out lay c.

Lemma good_iff c : good c <-> zsorted (cmap c) /\
  forall x d J, zget x (cmap c) = Some (d, J) ->
    block d = x /\ is_active d = true /\ mindim d = lay x /\
    shaped A (crows c) (lay x) J = true.
Proof.
  unfold good, container_ok, laid_out. rewrite <- sorted_iff. split.
  - intros ((S & F) & L). split; [exact S | ]. intros x d J E.
    apply (mget_in _ Zcompare_order) in E; [ | exact S].
    rewrite Forall_forall in F, L. specialize (F _ E). specialize (L _ E).
    cbn [fst snd] in F, L. destruct F as (F1 & F2 & F3). rewrite L in F3. auto.
  - intros (S & G). split; [split; [exact S | ] | ]; apply Forall_forall;
      intros (x & d & J) E; cbn [fst snd];
      destruct (G x d J) as (G1 & G2 & G3 & G4);
      [now apply (mget_in _ Zcompare_order) | | now apply (mget_in _ Zcompare_order) | exact G3].
    rewrite G3. auto.
Qed.

Lemma shaped_same r c a b :
  shaped A r c a = true -> shaped A r c b = true -> same_shape A a b = true.
Proof.
  rewrite !shaped_iff. intros (H1 & H2) (H3 & H4). unfold same_shape.
  rewrite H1, H3, Nat.eqb_refl. cbn [andb]. apply forallb_forall.
  intros (x & y) Hin. rewrite Forall_forall in *.
  cbn [fst snd]. rewrite (H2 x), (H4 y), Nat.eqb_refl;
    [reflexivity | eapply in_combine_r; exact Hin | eapply in_combine_l; exact Hin].
Qed.

Lemma good_both c r c' : good c -> zsorted (cmap c') -> crows c' = crows c ->
  (forall x d J, r x = Some (d, J) ->
     block d = x /\ is_active d = true /\ mindim d = lay x /\
     shaped A (crows c) (lay x) J = true) ->
  (forall x, zget x (cmap c') = both A (zget x (cmap c)) (r x)) -> good c'.
Proof.
  rewrite !good_iff. intros (S & G) S' HR Hr E. split; [exact S' | ].
  intros x d J H. rewrite E in H. rewrite HR. clear E.
  destruct (zget x (cmap c)) as [[d1 J1] | ] eqn:E1.
  - destruct (r x) as [[d2 J2] | ] eqn:E2; cbn [both] in H; injection H as <- <-.
    + destruct (G x d1 J1 E1) as (G1 & G2 & G3 & G4).
      destruct (Hr x d2 J2 E2) as (_ & _ & _ & R4).
      now rewrite (madd_shaped _ _ _ _ _ G4 R4).
    + now apply G.
  - cbn [both] in H. now apply Hr.
Qed.

Lemma add_one_spec d J c : good c ->
  (is_active d = true -> mindim d = lay (block d)) ->
  shaped A (crows c) (mindim d) J = true ->
  exists c', add_one A d J c = Ok c' /\ good c' /\ crows c' = crows c /\
    forall x, zget x (cmap c') =
      both A (zget x (cmap c))
        (if is_active d && Z.eqb x (block d) then Some (d, J) else None).
Proof.
  intros G HL HS. unfold add_one. rewrite HS.
  assert (B0 : forall x, zget x (cmap c) = both A (zget x (cmap c)) None).
  { intro x. destruct (zget x (cmap c)) as [[? ?] | ]; reflexivity. }
  destruct (is_active d) eqn:Ea.
  2:{ exists c. split; [reflexivity | split; [exact G | split; [reflexivity | ]]].
      intro x. apply B0. }
  specialize (HL eq_refl). cbn [andb].
  assert (G' := proj1 (good_iff c) G). destruct G' as (S & G').
  set (r := fun x => if Z.eqb x (block d) then Some (d, J) else None).
  assert (Hr : forall x d0 J0, r x = Some (d0, J0) ->
     block d0 = x /\ is_active d0 = true /\ mindim d0 = lay x /\
     shaped A (crows c) (lay x) J0 = true).
  { unfold r. intros x d0 J0 E. destruct (Z.eqb_spec x (block d)) as [-> | ];
      [ | discriminate]. injection E as <- <-. rewrite <- HL. auto. }
  assert (Done : forall v, both A (zget (block d) (cmap c)) (Some (d, J)) = Some v ->
    let c' := Container (crows c) (mput Z.compare (block d) v (cmap c)) in
    good c' /\ crows c' = crows c /\
    forall x, zget x (cmap c') = both A (zget x (cmap c)) (r x)).
  { intros v Ev c'. assert (Eg : forall x, zget x (cmap c') = both A (zget x (cmap c)) (r x)).
    { intro x. unfold c', r. cbn [cmap]. rewrite zget_put.
      destruct (Z.eqb_spec x (block d)) as [-> | ]; [now rewrite Ev | ].
      apply B0. }
    split; [ | split; [reflexivity | exact Eg]].
    apply (good_both c r c' G); [now apply zput_sorted | reflexivity | exact Hr | exact Eg]. }
  destruct (zget (block d) (cmap c)) as [[d0 J0] | ] eqn:E0.
  - unfold maddo. destruct (G' _ _ _ E0) as (_ & _ & _ & G4).
    rewrite <- HL in G4. rewrite (shaped_same _ _ _ _ G4 HS). cbn [obind].
    eexists. split; [reflexivity | ]. exact (Done _ eq_refl).
  - eexists. split; [reflexivity | ]. exact (Done _ eq_refl).
Qed.

Lemma add_all_good rhs c : good c -> good rhs -> crows rhs = crows c ->
  exists c', add_all A rhs c = Ok c' /\ good c' /\ crows c' = crows c /\
    forall x, zget x (cmap c') = both A (zget x (cmap c)) (zget x (cmap rhs)).
Proof.
  intros G GR HR. assert (G' := proj1 (good_iff c) G). destruct G' as (S & G').
  assert (H := proj1 (good_iff rhs) GR). destruct H as (SR & GR').
  edestruct (add_all_spec A rhs c S SR) as (c' & E & E1 & E2 & E3).
  - congruence.
  - intros x d J d' J' H1 H2. destruct (G' _ _ _ H1) as (_ & _ & _ & K1).
    destruct (GR' _ _ _ H2) as (_ & _ & _ & K2). rewrite HR in K2.
    exact (shaped_same _ _ _ _ K1 K2).
  - exists c'. split; [exact E | ]. split; [ | split; assumption].
    apply (good_both c (fun x => zget x (cmap rhs)) c' G E2 E1); [ | exact E3].
    rewrite <- HR. exact GR'.
Qed.

Lemma chain_good n M c : good c -> n = crows c ->
  exists c', chain_rule A n M c = Ok c' /\ good c' /\ crows c' = length M /\
    forall x, zget x (cmap c') =
      option_map (fun v => (fst v, mmul A (lay x) M (snd v))) (zget x (cmap c)).
Proof.
  intros G ->. unfold chain_rule. rewrite Nat.eqb_refl.
  assert (G' := proj1 (good_iff c) G). destruct G' as (S & G').
  eexists. split; [reflexivity | ].
  set (f := fun v : dvref * mat A => (fst v, mmul A (mindim (fst v)) M (snd v))).
  assert (E : forall x, zget x (map (fun e => (fst e, f (snd e))) (cmap c)) =
     option_map (fun v => (fst v, mmul A (lay x) M (snd v))) (zget x (cmap c))).
  { intro x. rewrite zget_map. destruct (zget x (cmap c)) as [[d J] | ] eqn:E;
      [ | reflexivity]. destruct (G' _ _ _ E) as (_ & _ & K & _).
    unfold f. cbn [option_map fst snd]. now rewrite K. }
  split; [ | split; [reflexivity | exact E]].
  apply good_iff. split.
  - cbn [cmap]. apply (sorted_map f), S.
  - cbn [cmap crows]. intros x d J H. unfold f in E. cbn [fst snd] in E.
    rewrite E in H. destruct (zget x (cmap c)) as [[d0 J0] | ] eqn:E0; [ | discriminate].
    injection H as <- <-. destruct (G' _ _ _ E0) as (K1 & K2 & K3 & _).
    cbn [snd]. rewrite mmul_shaped. auto.
Qed.

Lemma apply_total op c : good c -> op_ok lay op ->
  (forall c', apply op c = Ok c' -> good c') /\
  match op with
  | OpOne d J =>
      apply op c = if shaped A (crows c) (mindim d) J then apply op c else Throw
  | OpAll r => crows r <> crows c -> apply op c = Throw
  | OpChain n M => n <> crows c -> apply op c = Throw
  end.
Proof.
  intros G HO. destruct op as [d J | r | n M]; cbn [apply op_ok] in *.
  - split.
    + intros c' E. destruct (shaped A (crows c) (mindim d) J) eqn:Es.
      * destruct (add_one_spec d J c G HO Es) as (c1 & E1 & E2 & _). congruence.
      * unfold add_one in E. rewrite Es in E. discriminate.
    + unfold add_one. destruct (shaped A (crows c) (mindim d) J); reflexivity.
  - split.
    + intros c' E. destruct (Nat.eq_dec (crows r) (crows c)) as [Er | Er].
      * destruct (add_all_good r c G HO Er) as (c1 & E1 & E2 & _). congruence.
      * unfold add_all in E. destruct (Nat.eqb_spec (crows c) (crows r)); [congruence | discriminate].
    + intro Er. unfold add_all. destruct (Nat.eqb_spec (crows c) (crows r)); congruence.
  - split.
    + intros c' E. destruct (Nat.eq_dec n (crows c)) as [Er | Er].
      * destruct (chain_good n M c G Er) as (c1 & E1 & E2 & _). congruence.
      * unfold chain_rule in E. destruct (Nat.eqb_spec n (crows c)); [congruence | discriminate].
    + intro Er. unfold chain_rule. destruct (Nat.eqb_spec n (crows c)); congruence.
Qed.

Lemma creset_good rows : good (creset A rows).
Proof. split; [split | ]; constructor. Qed.

Lemma run_cases ops : forall c, good c -> Forall (op_ok lay) ops ->
  (sizes_match ops (crows c) /\ exists c', run ops c = Ok c' /\ good c') \/
  (~ sizes_match ops (crows c) /\ run ops c = Throw).
Proof.
  induction ops as [ | op ops IH]; intros c G H.
  - left. split; [exact I | ]. exists c. split; [reflexivity | exact G].
  - inversion_clear H. destruct op as [d J | r | n M]; cbn [run apply sizes_match].
    + destruct (shaped A (crows c) (mindim d) J) eqn:Es.
      * destruct (add_one_spec d J c G H0 Es) as (c1 & -> & G1 & R1 & _). cbn [obind].
        rewrite <- R1. destruct (IH c1 G1 H1) as [(a & b) | (a & b)]; [left | right]; auto.
        split; [ | exact b]. intros (_ & X). exact (a X).
      * right. unfold add_one. rewrite Es. split; [ | reflexivity]. intros (X & _). discriminate.
    + destruct (Nat.eq_dec (crows r) (crows c)) as [Er | Er].
      * destruct (add_all_good r c G H0 Er) as (c1 & -> & G1 & R1 & _). cbn [obind].
        rewrite <- R1. destruct (IH c1 G1 H1) as [(a & b) | (a & b)]; [left | right].
        -- split; [ | exact b]. split; [congruence | exact a].
        -- split; [ | exact b]. intros (_ & X). exact (a X).
      * right. unfold add_all. destruct (Nat.eqb_spec (crows c) (crows r)); [congruence | ].
        split; [ | reflexivity]. intros (X & _). congruence.
    + destruct (Nat.eq_dec n (crows c)) as [Er | Er].
      * destruct (chain_good n M c G Er) as (c1 & -> & G1 & R1 & _). cbn [obind].
        rewrite <- R1. destruct (IH c1 G1 H1) as [(a & b) | (a & b)]; [left | right].
        -- split; [ | exact b]. split; [congruence | exact a].
        -- split; [ | exact b]. intros (_ & X). exact (a X).
      * right. unfold chain_rule. destruct (Nat.eqb_spec n (crows c)); [congruence | ].
        split; [ | reflexivity]. intros (X & _). congruence.
Qed.
End Ops.
