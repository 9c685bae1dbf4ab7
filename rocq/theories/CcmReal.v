(** Products with vectors, over exact reals. *)
From Coq Require Import ZArith List Bool Lia Sorted Reals Lra.
From Verif Require Import Base Arith RArith MatReal OMap JacModel JacSpec JacProofs CcmModel CcmSpec
  CcmProofs CcmBuild CcmOps.
Import ListNotations.
Open Scope nat_scope.

Notation rcol := (list (nat * R)).
Notation rlook := (lookup RA).

Lemma store_get {V} (l : list V) : forall i v l', store i v l = Ok l' ->
  length l' = length l /\ i < length l /\ forall j d, nth j l' d = if Nat.eqb j i then v else nth j l d.
Proof.
  induction l as [ | x l IH]; intros [ | i] v l' H; cbn [store] in H; try discriminate.
  - injection H as <-. cbn [length]. split; [reflexivity | ]. split; [lia | ].
    intros [ | j] d; reflexivity.
  - destruct (store i v l) as [r | | | ] eqn:E; cbn [obind] in H; try discriminate.
    injection H as <-. destruct (IH i v r E) as (L & B & G). cbn [length].
    split; [lia | ]. split; [lia | ]. intros [ | j] d; [reflexivity | ]. cbn [nth Nat.eqb]. apply G.
Qed.

Lemma store_in {V} (l : list V) : forall i v, i < length l -> exists l', store i v l = Ok l'.
Proof.
  induction l as [ | x l IH]; intros [ | i] v H; cbn [length] in H; try lia.
  - eexists. reflexivity.
  - destruct (IH i v ltac:(lia)) as (l' & E). exists (x :: l'). cbn [store]. now rewrite E.
Qed.

Lemma load_nth (l : list R) i : i < length l -> @load (num RA) l i = Ok (nth i l 0%R).
Proof. intro H. apply load_ok. now apply nth_error_nth'. Qed.

Lemma look_cons r v (k : rcol) j : rlook ((r, v) :: k) j = if Nat.eqb r j then v else rlook k j.
Proof. unfold lookup. cbn [find fst]. now destruct (Nat.eqb r j). Qed.

Lemma look_absent (k : rcol) j : ~ In j (map fst k) -> rlook k j = 0%R.
Proof.
  intro H. unfold lookup. rewrite find_never; [reflexivity | ].
  intros i e He. apply Nat.eqb_neq. intro X. apply H. rewrite <- X.
  apply in_map. eapply nth_error_In, He.
Qed.

(** one column of [right_multiply] *)
Lemma scatter (xc : R) : forall (k : rcol) (y : list R),
  NoDup (map fst k) -> Forall (fun e => fst e < length y) k ->
  exists y' : list R, fold_left (fun o e =>
      do y <- o;
      do old <- load y (fst e);
      store (fst e) (add RA old (mul RA (snd e) xc)) y) k (Ok y) = Ok y' /\
    length y' = length y /\
    forall r, r < length y -> nth r y' 0%R = (nth r y 0 + rlook k r * xc)%R.
Proof.
  induction k as [ | [r v] k IH]; intros y ND F.
  - exists y. split; [reflexivity | ]. split; [reflexivity | ]. intros r _.
    unfold lookup. cbn [find of_Z RA]. cbn. lra.
  - cbn [fold_left fst snd]. cbn [map] in ND. apply NoDup_cons_iff in ND. destruct ND as (NI & ND).
    assert (Fr := Forall_inv F). assert (Fk := Forall_inv_tail F). cbn [fst] in *.
    cbn [obind]. rewrite (load_nth y r Fr). cbn [obind].
    destruct (@store_in (num RA) y r (nth r y 0 + v * xc)%R Fr) as (y1 & E1).
    change (add RA (nth r y 0%R) (mul RA v xc)) with (nth r y 0 + v * xc)%R.
    rewrite E1. destruct (store_get y r _ y1 E1) as (L1 & _ & G1).
    destruct (IH y1 ND) as (y2 & E2 & L2 & G2).
    { rewrite L1. exact Fk. }
    exists y2. split; [exact E2 | ]. split; [congruence | ]. intros j Hj.
    rewrite G2 by congruence. rewrite G1, look_cons. cbn [fst] in NI.
    rewrite (Nat.eqb_sym r j). destruct (Nat.eqb_spec j r) as [-> | Nj]; [ | reflexivity].
    rewrite (look_absent k r NI). cbn [num RA]. lra.
Qed.

Lemma rdot_snoc a : forall b x y, length a = length b ->
  rdot (a ++ [x]) (b ++ [y]) = (rdot a b + x * y)%R.
Proof.
  induction a as [ | p a IH]; intros [ | q b] x y H; cbn in H; try lia.
  - cbn. lra.
  - cbn [app rdot]. rewrite IH by lia. lra.
Qed.

Lemma firstn_snoc (x : list R) n : n < length x -> firstn (S n) x = firstn n x ++ [nth n x 0%R].
Proof.
  revert n. induction x as [ | a x IH]; intros [ | n] H; cbn [length] in H; try lia; [reflexivity | ].
  cbn [firstn nth app]. rewrite <- IH by lia. reflexivity.
Qed.

Lemma data_cols_ok (m : ccm RA) n : data_cols RA m = Some n -> n <= ncols m.
Proof.
  unfold data_cols. destruct (diag m); [ | intro H; injection H as <-; lia].
  destruct (Nat.leb_spec (nrows m) (ncols m)); [ | discriminate].
  intro H0. injection H0 as <-. lia.
Qed.

Lemma right_ok (m : ccm RA) cols n (x : list R) : repr RA m cols -> Forall (col_ok RA (nrows m)) cols ->
  data_cols RA m = Some n -> length x = n ->
  exists y : list R, right_multiply RA x m = Ok y /\ length y = nrows m /\
    forall r, r < nrows m ->
      nth r y 0%R = rdot (map (fun c => rlook (nth c cols []) r) (seq 0 n)) x.
Proof.
  intros HR F D Hx. unfold right_multiply. rewrite D.
  change (@length (num RA) x) with (@length R x). rewrite Hx, Nat.eqb_refl.
  assert (Hn := data_cols_ok m n D). rewrite (r_ncols _ _ _ HR) in Hn.
  assert (G : forall k, k <= n -> exists y : list R,
    fold_left (fun o c =>
            do y <- o;
            do es <- col_entries RA m c;
            do xc <- @load (num RA) x c;
            fold_left (fun o e =>
                do y <- o;
                do old <- load y (fst e);
                store (fst e) (add RA old (mul RA (snd e) xc)) y) es (Ok y))
          (seq 0 k) (Ok (repeat (of_Z RA 0) (nrows m))) = Ok y /\ length y = nrows m /\
    forall r, r < nrows m ->
      nth r y 0%R = rdot (map (fun c => rlook (nth c cols []) r) (seq 0 k)) (firstn k x)).
  { induction k as [ | k IH]; intro Hk.
    - eexists. split; [reflexivity | ]. split; [apply repeat_length | ].
      intros r Hr. cbn [seq map firstn rdot]. apply nth_repeat.
    - destruct (IH ltac:(lia)) as (y & E & L & P). rewrite seq_S, fold_left_app, E.
      cbn [Nat.add fold_left obind].
      destruct (nth_error cols k) as [kc | ] eqn:Ek; [ | apply nth_error_None in Ek; lia].
      rewrite (repr_col RA m cols k kc HR Ek). cbn [obind].
      rewrite (load_nth x k) by lia. cbn [obind].
      rewrite Forall_forall in F. destruct (F kc (nth_error_In _ _ Ek)) as (Srt & B).
      destruct (scatter (nth k x 0%R) kc y) as (y' & E' & L' & P').
      + apply sorted_NoDup, Srt.
      + change (Forall (fun e => fst e < @length R y) kc). rewrite L. exact B.
      + exists y'. split; [exact E' | ]. split; [congruence | ]. intros r Hr.
        rewrite P' by congruence. rewrite (P r Hr), map_app, firstn_snoc by lia.
        cbn [map]. rewrite rdot_snoc.
        * now rewrite (nth_error_nth _ _ [] Ek).
        * rewrite map_length, seq_length, firstn_length. lia. }
  destruct (G n ltac:(lia)) as (y & E & L & P). exists y. split; [exact E | ].
  split; [exact L | ]. intros r Hr. rewrite (P r Hr), firstn_all2 by lia. reflexivity.
Qed.

(** one column of [left_multiply] *)
Fixpoint esum (x : list R) (k : rcol) : R :=
  match k with [] => 0%R | e :: r => (snd e * nth (fst e) x 0 + esum x r)%R end.

Lemma gather (x : list R) c : forall (k : rcol) (y : list R), c < length y ->
  Forall (fun e => fst e < length x) k ->
  exists y' : list R, fold_left (fun o e =>
      do y <- o;
      do old <- load y c;
      do xr <- @load (num RA) x (fst e);
      store c (add RA old (mul RA (snd e) xr)) y) k (Ok y) = Ok y' /\
    length y' = length y /\
    forall j, nth j y' 0%R = if Nat.eqb j c then (nth c y 0 + esum x k)%R else nth j y 0%R.
Proof.
  induction k as [ | [r v] k IH]; intros y Hc F.
  - exists y. split; [reflexivity | ]. split; [reflexivity | ]. intro j. cbn [esum].
    destruct (Nat.eqb_spec j c) as [-> | ]; [lra | reflexivity].
  - cbn [fold_left fst snd obind]. assert (Fr := Forall_inv F). assert (Fk := Forall_inv_tail F).
    cbn [fst] in *. rewrite (load_nth y c Hc). cbn [obind]. rewrite (load_nth x r Fr). cbn [obind].
    destruct (@store_in (num RA) y c (add RA (nth c y 0%R) (mul RA v (nth r x 0%R))) Hc) as (y1 & E1).
    rewrite E1. destruct (store_get y c _ y1 E1) as (L1 & _ & G1).
    destruct (IH y1 ltac:(lia) Fk) as (y2 & E2 & L2 & G2).
    exists y2. split; [exact E2 | ]. split; [congruence | ]. intro j. rewrite G2, !G1, Nat.eqb_refl.
    destruct (Nat.eqb j c); [ | reflexivity]. cbn [esum fst snd add mul RA]. lra.
Qed.

Lemma rdot_single (x : list R) r v : forall n a, a <= r -> r < a + n -> n <= length x ->
  rdot (map (fun i => if Nat.eqb r i then v else 0%R) (seq a n)) x = (v * nth (r - a) x 0)%R.
Proof.
  intros n. revert x. induction n as [ | n IH]; intros x a Ha Hr Hx; [lia | ].
  destruct x as [ | y x]; cbn [length] in Hx; [lia | ]. cbn [seq map rdot].
  destruct (Nat.eqb_spec r a) as [-> | Ne].
  - rewrite Nat.sub_diag. cbn [nth].
    assert (Z : forall n b x, a < b ->
      rdot (map (fun i => if Nat.eqb a i then v else 0%R) (seq b n)) x = 0%R).
    { clear. induction n as [ | n IH]; intros b x H; [reflexivity | ].
      destruct x as [ | y x]; [reflexivity | ]. cbn [seq map rdot].
      destruct (Nat.eqb_spec a b); [lia | ]. rewrite IH by lia. lra. }
    rewrite Z by lia. lra.
  - rewrite IH by lia. replace (r - a) with (S (r - S a)) by lia. cbn [nth]. lra.
Qed.

Lemma esum_dot (x : list R) (k : rcol) : NoDup (map fst k) ->
  Forall (fun e => fst e < length x) k ->
  esum x k = rdot (map (fun i => rlook k i) (seq 0 (length x))) x.
Proof.
  induction k as [ | [r v] k IH]; intros ND F.
  - symmetry. exact (rdot_zeros (length x) x).
  - cbn [map] in ND. apply NoDup_cons_iff in ND. destruct ND as (NI & ND). cbn [fst] in NI.
    assert (Fr := Forall_inv F). assert (Fk := Forall_inv_tail F). cbn [fst] in Fr.
    cbn [esum fst snd]. rewrite (IH ND Fk).
    assert (S1 := rdot_single x r v (length x) 0 ltac:(lia) ltac:(lia) ltac:(lia)).
    rewrite Nat.sub_0_r in S1. rewrite <- S1.
    assert (L := rdot_map_lin (fun i => if Nat.eqb r i then v else 0%R) (fun i => rlook k i) 1 x
                   (seq 0 (length x))).
    rewrite Rmult_1_l in L. etransitivity; [symmetry; exact L | ].
    f_equal. apply map_ext. intro i.
    rewrite look_cons. destruct (Nat.eqb_spec r i) as [<- | Ne]; [ | lra].
    rewrite (look_absent k r NI). lra.
Qed.

Lemma left_ok (m : ccm RA) cols n (x : list R) : repr RA m cols -> Forall (col_ok RA (nrows m)) cols ->
  data_cols RA m = Some n -> length x = nrows m ->
  exists y : list R, left_multiply RA x m = Ok y /\ length y = n /\
    forall c, c < n ->
      nth c y 0%R = rdot (map (fun r => rlook (nth c cols []) r) (seq 0 (nrows m))) x.
Proof.
  intros HR F D Hx. unfold left_multiply. rewrite D.
  change (@length (num RA) x) with (@length R x). rewrite Hx, Nat.eqb_refl.
  assert (Hn := data_cols_ok m n D). rewrite (r_ncols _ _ _ HR) in Hn.
  assert (G : forall k, k <= n -> exists y : list R,
    fold_left (fun o c =>
            do y <- o;
            do es <- col_entries RA m c;
            fold_left (fun o e =>
                do y <- o;
                do old <- load y c;
                do xr <- @load (num RA) x (fst e);
                store c (add RA old (mul RA (snd e) xr)) y) es (Ok y))
          (seq 0 k) (Ok (repeat (of_Z RA 0) n)) = Ok y /\ length y = n /\
    forall c, c < n -> nth c y 0%R =
      if Nat.ltb c k then rdot (map (fun r => rlook (nth c cols []) r) (seq 0 (nrows m))) x else 0%R).
  { induction k as [ | k IH]; intro Hk.
    - eexists. split; [reflexivity | ]. split; [apply repeat_length | ].
      intros c Hc. cbn [Nat.ltb Nat.leb]. apply nth_repeat.
    - destruct (IH ltac:(lia)) as (y & E & L & P). rewrite seq_S, fold_left_app, E.
      cbn [Nat.add fold_left obind].
      destruct (nth_error cols k) as [kc | ] eqn:Ek; [ | apply nth_error_None in Ek; lia].
      rewrite (repr_col RA m cols k kc HR Ek). cbn [obind].
      rewrite Forall_forall in F. destruct (F kc (nth_error_In _ _ Ek)) as (Srt & B).
      destruct (gather x k kc y) as (y' & E' & L' & P'); [lia | now rewrite Hx | ].
      exists y'. split; [exact E' | ]. split; [congruence | ]. intros c Hc. rewrite P'.
      destruct (Nat.eqb_spec c k) as [-> | Nc].
      + rewrite (P k Hc), (proj2 (Nat.ltb_ge k k)), (proj2 (Nat.ltb_lt k (S k))) by lia.
        rewrite (nth_error_nth _ _ [] Ek), Rplus_0_l, <- Hx.
        apply esum_dot; [apply sorted_NoDup, Srt | now rewrite Hx].
      + rewrite (P c Hc). destruct (Nat.ltb_spec c k), (Nat.ltb_spec c (S k)); try lia; reflexivity. }
  destruct (G n ltac:(lia)) as (y & E & L & P). exists y. split; [exact E | ].
  split; [exact L | ]. intros c Hc. now rewrite (P c Hc), (proj2 (Nat.ltb_lt c n) Hc).
Qed.
