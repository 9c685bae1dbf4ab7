(** Proofs about marginal covariances. *)
From Coq Require Import ZArith List Bool Lia Reals Lra Permutation.
From Verif Require Import Base Arith RArith OMap JacModel CcmModel SbmModel SbmSpec SbmProofs SbmMore SbmReal McModel McSpec.
Import ListNotations.
Open Scope nat_scope.

(** ** Algebra. *)
Lemma sumn_one n k (g : nat -> R) : k < n -> (forall i, i < n -> i <> k -> g i = 0%R) -> sumn n g = g k.
Proof.
  intros Hk H. rewrite <- (sumn_only n k g Hk). apply sumn_ext. intros i Hi.
  destruct (Nat.eqb_spec i k); [reflexivity | now apply H].
Qed.

Section Algebra.
Variables (n : nat) (f P : nat -> nat -> R).
Hypothesis Hlow : forall i l, i < n -> l < n -> i < l -> f i l = 0%R.
Hypothesis Hdiag : forall i, i < n -> f i i <> 0%R.
Hypothesis HP : inverse_of n (gram n f) P.

Definition ltp (l k : nat) : R := sumn n (fun j => (f j l * P j k)%R).

Lemma gram_sym i j : gram n f i j = gram n f j i.
Proof. unfold gram. apply sumn_ext. intros; lra. Qed.

Lemma ltp_eq i k : i < n -> k < n -> sumn n (fun l => (f i l * ltp l k)%R) = if i =? k then 1%R else 0%R.
Proof.
  intros Hi Hk. rewrite <- (HP i k Hi Hk). unfold ltp, gram.
  rewrite (sumn_ext n (fun l => (f i l * sumn n (fun j => (f j l * P j k)%R))%R)
             (fun l => sumn n (fun j => (f i l * (f j l * P j k))%R))) by (intros; symmetry; apply sumn_scale).
  rewrite sumn_swap. apply sumn_ext. intros j Hj.
  rewrite (Rmult_comm (sumn n _)), <- sumn_scale. apply sumn_ext. intros; lra.
Qed.

Lemma ltp_below : forall i k, i < k -> k < n -> ltp i k = 0%R.
Proof.
  induction i as [i IH] using (well_founded_induction lt_wf). intros k Hik Hk.
  pose proof (ltp_eq i k ltac:(lia) Hk) as E. rewrite (proj2 (Nat.eqb_neq i k)) in E by lia.
  rewrite (sumn_one n i) in E; [ | lia | ].
  - apply Rmult_integral in E as [E | E]; [ | exact E]. exfalso. apply (Hdiag i ltac:(lia) E).
  - intros l Hl Hne. destruct (Nat.lt_ge_cases l i) as [K | K].
    + rewrite (IH l K k ltac:(lia) Hk). lra.
    + rewrite Hlow by lia. lra.
Qed.

Lemma ltp_diag k : k < n -> ltp k k = (1 / f k k)%R.
Proof.
  intro Hk. pose proof (ltp_eq k k Hk Hk) as E. rewrite Nat.eqb_refl in E.
  rewrite (sumn_one n k) in E; [ | exact Hk | ].
  - pose proof (Hdiag k Hk). apply (Rmult_eq_reg_l (f k k)); [ | assumption]. rewrite E. field. assumption.
  - intros l Hl Hne. destruct (Nat.lt_ge_cases l k) as [K | K].
    + rewrite (ltp_below l k K Hk). lra.
    + rewrite Hlow by lia. lra.
Qed.

Lemma inv_sym a k : a < n -> k < n -> P a k = P k a.
Proof.
  intros Ha Hk.
  assert (E : sumn n (fun i => (P i a * sumn n (fun j => (gram n f i j * P j k)%R))%R) =
              sumn n (fun j => (sumn n (fun i => (gram n f j i * P i a)%R) * P j k)%R)).
  { rewrite (sumn_ext n _ (fun i => sumn n (fun j => (P i a * (gram n f i j * P j k))%R)))
      by (intros; symmetry; apply sumn_scale).
    rewrite sumn_swap. apply sumn_ext. intros j Hj.
    rewrite (Rmult_comm (sumn n _)), <- sumn_scale. apply sumn_ext. intros i Hi.
    rewrite (gram_sym i j). lra. }
  assert (E1 : sumn n (fun i => (P i a * sumn n (fun j => (gram n f i j * P j k)%R))%R) = P k a).
  { rewrite (sumn_ext n _ (fun i => (P i a * (if (i =? k)%nat then 1 else 0))%R)) by (intros; now rewrite HP).
    rewrite (sumn_one n k); [ | exact Hk | ].
    - rewrite Nat.eqb_refl. lra.
    - intros i Hi Hne. rewrite (proj2 (Nat.eqb_neq i k)) by assumption. lra. }
  assert (E2 : sumn n (fun j => (sumn n (fun i => (gram n f j i * P i a)%R) * P j k)%R) = P a k).
  { rewrite (sumn_ext n _ (fun j => ((if (j =? a)%nat then 1 else 0) * P j k)%R)) by (intros; now rewrite HP).
    rewrite (sumn_one n a); [ | exact Ha | ].
    - rewrite Nat.eqb_refl. lra.
    - intros i Hi Hne. rewrite (proj2 (Nat.eqb_neq i a)) by assumption. lra. }
  congruence.
Qed.
End Algebra.

Lemma value_in_none es r : ~ In r (map fst es) -> value_in es r = 0%R.
Proof.
  induction es as [ | (k & v) es IH]; intro H; [reflexivity | ]. cbn [value_in].
  cbn [map fst In] in H. destruct (Nat.eqb_spec r k); [subst; tauto | apply IH; tauto].
Qed.

Lemma sparse_sum n es (h : nat -> R) : NoDup (map fst es) -> (forall r v, In (r, v) es -> r < n) ->
  sumn n (fun i => (value_in es i * h i)%R) = rsum (map (fun e : nat * R => (snd e * h (fst e))%R) es).
Proof.
  induction es as [ | (k & v) es IH]; intros N B.
  - apply sumn_zero. intros; cbn [value_in]; lra.
  - cbn [map fst snd rsum]. cbn [map fst] in N. inversion_clear N as [ | ? ? N1 N2].
    rewrite <- IH by (auto; intros; eapply B; right; eassumption).
    rewrite <- (sumn_only n k (fun i => (v * h i)%R)) by (apply (B k v); now left).
    rewrite <- sumn_plus. apply sumn_ext. intros i Hi. cbn [value_in].
    destruct (Nat.eqb_spec i k) as [-> | ]; [rewrite (value_in_none es k N1) | ]; lra.
Qed.

Lemma load_some {V} (l : list V) i v : nth_error l i = Some v -> load l i = Ok v.
Proof. intro H. unfold load. now rewrite H. Qed.

(** ** The recursion. *)
Section Run.
Variables (n : nat) (f P : nat -> nat -> R).
Variable F : chol RA.
Hypothesis Hn : cn F = n.
Hypothesis Hint : (Z.of_nat n * Z.of_nat n <= 2147483648)%Z.
Hypothesis HL : lower_factor n (lp F) (li F) (lx F) f.
Hypothesis HD : forall r, r < n -> nth_error (rdiag F) r = Some (1 / f r r)%R.
Hypothesis HP : inverse_of n (gram n f) P.

Lemma low i l : i < n -> l < n -> i < l -> f i l = 0%R.
Proof.
  intros Hi Hl Hil. destruct (HL l Hl) as (d & es & _ & _ & _ & B & V). rewrite V. cbn [value_in].
  rewrite (proj2 (Nat.eqb_neq i l)) by lia. apply value_in_none.
  intro K. apply in_map_iff in K as ((r & v) & E & K). cbn [fst] in E. subst. apply B in K. lia.
Qed.
Lemma diag_nz i : i < n -> f i i <> 0%R.
Proof.
  intros Hi. destruct (HL i Hi) as (d & es & _ & D & _ & _ & V). rewrite V. cbn [value_in]. now rewrite Nat.eqb_refl.
Qed.

Definition upper (i c : nat) : R := if i <? c then P i c else P c i.

Lemma recurrence r c d es : r <= c -> c < n ->
  NoDup (map fst es) -> (forall i v, In (i, v) es -> r < i /\ i < n) ->
  (forall i, f i r = value_in ((r, d) :: es) i) ->
  let s := rsum (map (fun e : nat * R => (upper (fst e) c * snd e)%R) es) in
  P r c = if r =? c then ((1 / f r r) * ((1 / f r r) - s))%R else ((0 - s) * (1 / f r r))%R.
Proof.
  intros Hrc Hc N B V s. pose proof low as L0. pose proof diag_nz as D0.
  assert (E : ltp n f P r c = (f r r * P r c + s)%R).
  { unfold ltp. rewrite (sumn_ext n _ (fun j => (value_in ((r, d) :: es) j * P j c)%R)) by (intros; now rewrite V).
    rewrite sparse_sum.
    - cbn [map fst snd rsum]. rewrite V. cbn [value_in]. rewrite Nat.eqb_refl. f_equal.
      unfold s. f_equal. apply map_ext_in. intros (i & v) K. cbn [fst snd]. unfold upper.
      destruct (B i v K) as [_ Hi]. destruct (i <? c); [lra | ]. rewrite (inv_sym n f P HP i c Hi Hc). lra.
    - cbn [map fst]. constructor; [ | exact N]. intro K. apply in_map_iff in K as ((i & v) & E & K).
      cbn [fst] in E. subst. apply B in K. lia.
    - intros i v [K | K]; [injection K as <- <-; lia | apply B in K; lia]. }
  pose proof (D0 r ltac:(lia)) as D. destruct (Nat.eqb_spec r c) as [-> | Hne].
  - rewrite (ltp_diag n f P L0 D0 HP c Hc) in E.
    apply (Rmult_eq_reg_l (f c c)); [ | exact D].
    replace (f c c * P c c)%R with (1 / f c c - s)%R by lra. field. exact D.
  - rewrite (ltp_below n f P L0 D0 HP r c ltac:(lia) Hc) in E.
    apply (Rmult_eq_reg_l (f r r)); [ | exact D].
    replace (f r r * P r c)%R with (0 - s)%R by lra. field. exact D.
Qed.

Definition key (r c : nat) : Z := (Z.of_nat r * Z.of_nat n + Z.of_nat c)%Z.
Lemma index_ok r c : r < n -> c < n -> index RA F r c = Ok (key r c).
Proof. intros Hr Hc. unfold index. rewrite Hn. apply ret_i32_ok. unfold in_i32, INT_MIN, INT_MAX, key. nia. Qed.
Lemma key_inj r c r' c' : c < n -> c' < n -> key r c = key r' c' -> r = r' /\ c = c'.
Proof. unfold key. intros. assert (r = r') by nia. subst. split; [reflexivity | lia]. Qed.

Definition memo_ok (mp : list (Z * R)) : Prop :=
  sorted Z.compare mp /\
  forall idx v, mget Z.compare idx mp = Some v ->
    exists r c, r <= c /\ c < n /\ idx = key r c /\ v = P r c.
Definition extends (mp mp' : list (Z * R)) : Prop :=
  forall idx v, mget Z.compare idx mp = Some v -> mget Z.compare idx mp' = Some v.

Lemma entry_ok : forall fuel r c (mp : list (Z * R)), r <= c -> c < n -> 2 * n - (r + c) <= fuel -> memo_ok mp ->
  exists mp' : list (Z * R), entry_of RA fuel F r c mp = Ok (P r c, mp') /\ memo_ok mp' /\ extends mp mp' /\
    mget Z.compare (key r c) mp' = Some (P r c).
Proof.
  induction fuel as [ | fuel IH]; intros r c mp Hrc Hc Hf M; [lia | ].
  cbn [entry_of]. rewrite index_ok by lia. cbn [obind]. change (num RA) with R.
  destruct (mget Z.compare (key r c) mp) as [v | ] eqn:E.
  - destruct M as [M1 M2]. destruct (M2 _ _ E) as (r' & c' & Hr' & Hc' & K & ->).
    apply key_inj in K as [<- <-]; [ | lia | lia].
    exists mp. split; [reflexivity | ]. split; [split; assumption | ]. split; [intros ? ? H; exact H | exact E].
  - destruct (HL r ltac:(lia)) as (d & es & (a & S1 & S2 & S3) & Hd & N & B & V).
    rewrite (load_some _ _ _ S1). cbn [obind]. rewrite (load_some _ _ _ S2). cbn [obind].
    cbn [length]. replace (a + S (length es) - (a + 1)) with (length es) by lia.
    assert (G : forall es' off s0 (mp : list (Z * R)), memo_ok mp -> (forall i v, In (i, v) es' -> r < i /\ i < n) ->
      (forall k i v, nth_error es' k = Some (i, v) -> nth_error (li F) (off + k) = Some i /\ nth_error (lx F) (off + k) = Some v) ->
      exists mp' : list (Z * R),
        fold_left (fun (o : outcome (R * list (Z * R))) j =>
                do '(s, mp) <- o;
                do rr <- load (li F) j;
                do '(v, mp') <- (if rr <? c then entry_of RA fuel F rr c mp else entry_of RA fuel F c rr mp);
                do x <- load (lx F) j;
                Ok (add RA s (mul RA v x), mp')) (seq off (length es')) (Ok (s0, mp)) =
        Ok ((s0 + rsum (map (fun e : nat * R => (upper (fst e) c * snd e)%R) es'))%R, mp') /\
        memo_ok mp' /\ extends mp mp').
    { induction es' as [ | (i & v) es' IHe]; intros off s0 mp0 M0 B' S'.
      - exists mp0. cbn [length seq fold_left map rsum]. split; [now rewrite Rplus_0_r | ]. split; [exact M0 | ]. intros ? ? H; exact H.
      - cbn [length seq fold_left obind]. destruct (S' 0 i v eq_refl) as [T1 T2]. rewrite Nat.add_0_r in T1, T2.
        destruct (B' i v (or_introl eq_refl)) as [Hi1 Hi2].
        rewrite (load_some (li F) off i T1). cbn [obind].
        assert (R0 : exists mp1 : list (Z * R), (if i <? c then entry_of RA fuel F i c mp0 else entry_of RA fuel F c i mp0) =
          Ok (upper i c, mp1) /\ memo_ok mp1 /\ extends mp0 mp1).
        { unfold upper. destruct (Nat.ltb_spec i c) as [K | K].
          - destruct (IH i c mp0 ltac:(lia) ltac:(lia) ltac:(lia) M0) as (mp1 & E1 & M1 & X1 & _). exists mp1. auto.
          - destruct (IH c i mp0 ltac:(lia) ltac:(lia) ltac:(lia) M0) as (mp1 & E1 & M1 & X1 & _). exists mp1. auto. }
        destruct R0 as (mp1 & E1 & M1 & X1).
        rewrite E1. cbn [obind]. rewrite (load_some (lx F) off v T2). cbn [obind].
        destruct (IHe (S off) (s0 + upper i c * v)%R mp1 M1) as (mp2 & E2 & M2 & X2).
        + intros i' v' K. apply (B' i' v'). now right.
        + intros k i' v' K. replace (S off + k) with (off + S k) by lia. now apply S'.
        + exists mp2. split; [ | split; [exact M2 | ]].
          * etransitivity; [exact E2 | ]. cbn [map fst snd rsum]. f_equal. f_equal. lra.
          * intros idx w K. exact (X2 idx w (X1 idx w K)). }
    destruct (G es (a + 1) 0%R mp M B) as (mp1 & E1 & M1 & X1).
    { intros k i v K. replace (a + 1 + k) with (a + S k) by lia. now apply S3. }
    cbn beta in E1. rewrite Rplus_0_l in E1.
    match goal with |- context [fold_left ?g ?l ?z] =>
      assert (E1' : fold_left g l z = Ok (rsum (map (fun e : nat * R => (upper (fst e) c * snd e)%R) es), mp1)) by exact E1 end.
    rewrite E1'. cbn [obind]. rewrite (load_some (V := R) (rdiag F) r _ (HD r ltac:(lia))). cbn [obind].
    pose proof (recurrence r c d es Hrc Hc N B V) as EQ. cbv zeta in EQ.
    cbn [mul sub RA of_Z] in *. rewrite <- EQ.
    assert (EM : mget Z.compare (key r c) mp1 = None \/ mget Z.compare (key r c) mp1 = Some (P r c)).
    { destruct (mget Z.compare (key r c) mp1) as [w | ] eqn:EW; [right | now left].
      destruct M1 as [_ M1]. destruct (M1 _ _ EW) as (r' & c' & Hr' & Hc' & K & ->).
      apply key_inj in K as [<- <-]; [reflexivity | lia | lia]. }
    exists (mput Z.compare (key r c) (P r c) mp1). split; [reflexivity | ].
    destruct M1 as [M1 M1'].
    split; [ | split].
    + split; [now apply (mput_sorted _ Zcompare_order) | ]. intros idx w K.
      destruct (Z.eq_dec idx (key r c)) as [-> | Hne].
      * rewrite (mget_put_same _ Zcompare_order) in K. injection K as <-. exists r, c. auto.
      * rewrite (mget_put_other _ Zcompare_order) in K by congruence. now apply M1'.
    + intros idx w K. apply X1 in K. destruct (Z.eq_dec idx (key r c)) as [-> | Hne].
      * rewrite (mget_put_same _ Zcompare_order). destruct EM as [EM | EM]; congruence.
      * rewrite (mget_put_other _ Zcompare_order) by congruence. exact K.
    + apply (mget_put_same _ Zcompare_order).
Qed.
End Run.

(** ** Permutations. *)
Lemma sumn_rsum n g : sumn n g = rsum (map g (seq 0 n)).
Proof.
  induction n as [ | n IH]; [reflexivity | ]. rewrite seq_S, map_app, rsum_app. cbn [sumn map rsum Nat.add].
  rewrite IH. lra.
Qed.
Lemma rsum_perm a b : Permutation a b -> rsum a = rsum b.
Proof. induction 1; cbn [rsum]; lra. Qed.

Lemma bijective_perm n q : bijective n q -> Permutation (map q (seq 0 n)) (seq 0 n).
Proof.
  intros [B I]. apply NoDup_Permutation_bis.
  - assert (G : forall l, NoDup l -> (forall a, In a l -> a < n) -> NoDup (map q l)).
    { induction l as [ | x l IH]; intros N H; [constructor | ]. inversion_clear N as [ | ? ? N1 N2].
      cbn [map]. constructor.
      - intro K. apply in_map_iff in K as (y & E & K). apply N1.
        assert (y = x) by (apply I; [apply H; now right | apply H; now left | exact E]). now subst.
      - apply IH; [exact N2 | ]. intros; apply H; now right. }
    apply G; [apply seq_NoDup | ]. intros a K. apply in_seq in K. lia.
  - now rewrite map_length.
  - intros x K. apply in_map_iff in K as (a & <- & K). apply in_seq in K. apply in_seq. specialize (B a). lia.
Qed.

Lemma sumn_reindex n q g : bijective n q -> sumn n (fun a => g (q a)) = sumn n g.
Proof.
  intro B. rewrite !sumn_rsum. rewrite <- (map_map q g). apply rsum_perm, Permutation_map, bijective_perm, B.
Qed.

Definition back (n : nat) (q : nat -> nat) (i : nat) : nat :=
  match find (fun a => q a =? i) (seq 0 n) with Some a => a | None => 0 end.
Lemma back_ok n q i : bijective n q -> i < n -> back n q i < n /\ q (back n q i) = i.
Proof.
  intros B Hi. unfold back. destruct (find (fun a => q a =? i) (seq 0 n)) as [a | ] eqn:E.
  - apply find_some in E as [K E]. apply in_seq in K. apply Nat.eqb_eq in E. split; [lia | exact E].
  - exfalso. assert (K : In i (map q (seq 0 n))).
    { apply (Permutation_in _ (Permutation_sym (bijective_perm n q B))), in_seq. lia. }
    apply in_map_iff in K as (a & K1 & K2). apply (find_none _ _ E) in K2. apply Nat.eqb_neq in K2. contradiction.
Qed.
Lemma back_bij n q : bijective n q -> bijective n (back n q).
Proof.
  intro B. split; [intros a Ha; now apply back_ok | ]. intros a b Ha Hb E.
  destruct (back_ok n q a B Ha) as [_ E1], (back_ok n q b B Hb) as [_ E2]. congruence.
Qed.
Lemma back_q n q a : bijective n q -> a < n -> back n q (q a) = a.
Proof.
  intros B Ha. destruct B as [B I]. destruct (back_ok n q (q a) (Logic.conj B I) (B a Ha)) as [E1 E2]. now apply I.
Qed.

Lemma permuted_inverse n H C f q : bijective n q -> factored n H f q -> inverse_of n H C ->
  inverse_of n (gram n f) (fun i k => C (back n q i) (back n q k)).
Proof.
  intros B F I i k Hi Hk. destruct (back_ok n q i B Hi) as [Bi Qi], (back_ok n q k B Hk) as [Bk Qk].
  rewrite (sumn_ext n _ (fun j => (fun a => (H (back n q i) a * C a (back n q k))%R) (back n q j))).
  - rewrite (sumn_reindex n (back n q) (fun a => (H (back n q i) a * C a (back n q k))%R) (back_bij n q B)).
    rewrite I by assumption. destruct (Nat.eqb_spec i k) as [-> | Hne]; [now rewrite Nat.eqb_refl | ].
    destruct (Nat.eqb_spec (back n q i) (back n q k)) as [E | ]; [ | reflexivity].
    exfalso. apply Hne. congruence.
  - intros j Hj. cbv beta. destruct (back_ok n q j B Hj) as [Bj Qj].
    rewrite (F (back n q i) (back n q j) Bi Bj), Qi, Qj. reflexivity.
Qed.

(** ** Sorting and running. *)
Lemma insert_in e l x : In x (insert e l) <-> x = e \/ In x l.
Proof.
  induction l as [ | y l IH]; cbn [insert In]; [intuition | ].
  destruct (before y e); cbn [In]; [rewrite IH | ]; intuition.
Qed.
Lemma sort_in l x : In x (sort l) <-> In x l.
Proof.
  induction l as [ | y l IH]; [reflexivity | ]. unfold sort in *. cbn [fold_right In]. rewrite insert_in, IH. intuition.
Qed.

Lemma mapo_ok {U V} (g : U -> outcome V) (h : U -> V) l : (forall x, In x l -> g x = Ok (h x)) ->
  mapo g l = Ok (map h l).
Proof.
  induction l as [ | x l IH]; intro H; [reflexivity | ]. cbn [mapo map].
  rewrite H by now left. cbn [obind]. rewrite IH by (intros; apply H; now right). reflexivity.
Qed.

Section Cov.
Variables (n : nat) (H C f : nat -> nat -> R) (pinv : option (list nat)).
Variable F : chol RA.
Hypothesis Hn : cn F = n.
Hypothesis Hint : (Z.of_nat n * Z.of_nat n <= 2147483648)%Z.
Hypothesis Hpi : perm F = pinv.
Hypothesis HL : lower_factor n (lp F) (li F) (lx F) f.
Hypothesis HD : forall r, r < n -> nth_error (rdiag F) r = Some (1 / f r r)%R.
Hypothesis HQ : pinv_ok n pinv.
Hypothesis HF : factored n H f (place pinv).
Hypothesis HC : inverse_of n H C.

Lemma place_bij : bijective n (place pinv).
Proof. destruct pinv as [p | ]; [apply HQ | ]. split; auto. Qed.

Definition PP (i k : nat) : R := C (back n (place pinv) i) (back n (place pinv) k).
Lemma PP_inv : inverse_of n (gram n f) PP.
Proof. exact (permuted_inverse n H C f _ place_bij HF HC). Qed.
Lemma PP_at a b : a < n -> b < n -> PP (place pinv a) (place pinv b) = C a b.
Proof. intros Ha Hb. unfold PP. now rewrite !back_q by (auto using place_bij). Qed.

Lemma C_sym a b : a < n -> b < n -> C a b = C b a.
Proof.
  intros Ha Hb. rewrite <- (PP_at a b), <- (PP_at b a) by assumption.
  apply (inv_sym n f PP PP_inv); now apply place_bij.
Qed.

Definition order (e : nat * nat) : nat * nat :=
  let r := place pinv (fst e) in let c := place pinv (snd e) in if c <? r then (c, r) else (r, c).
Lemma permuted_ok e : fst e < n -> snd e < n -> permuted RA F e = Ok (order e).
Proof.
  intros H1 H2. unfold permuted, order, place. rewrite Hpi. destruct pinv as [p | ] eqn:EP; [ | reflexivity].
  destruct HQ as [L _].
  rewrite (load_some p (fst e) (nth (fst e) p 0)) by (apply nth_error_nth'; lia).
  rewrite (load_some p (snd e) (nth (snd e) p 0)) by (apply nth_error_nth'; lia). reflexivity.
Qed.
Lemma order_range e : fst e < n -> snd e < n -> fst (order e) <= snd (order e) /\ snd (order e) < n.
Proof.
  intros H1 H2. pose proof (proj1 place_bij _ H1). pose proof (proj1 place_bij _ H2).
  unfold order. cbv zeta. destruct (Nat.ltb_spec (place pinv (snd e)) (place pinv (fst e))); cbn [fst snd]; lia.
Qed.
Lemma order_val e : fst e < n -> snd e < n -> PP (fst (order e)) (snd (order e)) = C (fst e) (snd e).
Proof.
  intros H1 H2. rewrite <- (PP_at (fst e) (snd e)) by assumption.
  unfold order. cbv zeta. destruct (place pinv (snd e) <? place pinv (fst e)); cbn [fst snd]; [ | reflexivity].
  apply (inv_sym n f PP PP_inv); now apply place_bij.
Qed.

Lemma compute_all_ok es : (forall e, In e es -> fst e <= snd e /\ snd e < n) ->
  exists mp : list (Z * R), compute_all RA F es = Ok mp /\
    forall e, In e es -> mget Z.compare (key n (fst e) (snd e)) mp = Some (PP (fst e) (snd e)).
Proof.
  intro B. unfold compute_all.
  assert (G : forall l (mp : list (Z * R)), (forall e, In e l -> fst e <= snd e /\ snd e < n) -> memo_ok n PP mp ->
    exists mp' : list (Z * R),
      fold_left (fun (o : outcome (list (Z * R))) e => do mp <- o; do '(_, mp') <- entry_of RA (fuel_for RA F) F (fst e) (snd e) mp; Ok mp')
        l (Ok mp) = Ok mp' /\ extends mp mp' /\
      forall e, In e l -> mget Z.compare (key n (fst e) (snd e)) mp' = Some (PP (fst e) (snd e))).
  { induction l as [ | e l IH]; intros mp Bl M.
    - exists mp. split; [reflexivity | ]. split; [intros ? ? K; exact K | intros ? []].
    - cbn [fold_left obind]. destruct (Bl e (or_introl eq_refl)) as [B1 B2].
      assert (Fu : 2 * n - (fst e + snd e) <= fuel_for RA F) by (unfold fuel_for; lia).
      destruct (entry_ok n f PP F Hn Hint HL HD PP_inv (fuel_for RA F) (fst e) (snd e) mp B1 B2 Fu M) as (mp1 & E1 & M1 & X1 & V1).
      change (num RA) with R in *. rewrite E1. cbn [obind].
      destruct (IH mp1) as (mp2 & E2 & X2 & V2); [intros; apply Bl; now right | exact M1 | ].
      exists mp2. split; [exact E2 | ]. split; [intros idx v K; exact (X2 idx v (X1 idx v K)) | ].
      intros e' [<- | K]; [exact (X2 _ _ V1) | now apply V2]. }
  destruct (G (sort es) []) as (mp & E & _ & V).
  - intros e K. apply B. now apply sort_in.
  - split; [exact I | ]. intros idx v K. discriminate.
  - exists mp. split; [exact E | ]. intros e K. apply V. now apply sort_in.
Qed.

Lemma look_ok mp e : fst e < n -> snd e < n ->
  mget Z.compare (key n (fst (order e)) (snd (order e))) mp = Some (PP (fst (order e)) (snd (order e))) ->
  look RA F mp e = Ok (C (fst e) (snd e)).
Proof.
  intros H1 H2 K. unfold look. rewrite permuted_ok by assumption. cbn [obind].
  pose proof (order_range e H1 H2) as [O1 O2].
  rewrite (index_ok n F Hn Hint) by lia. cbn [obind]. change (num RA) with R. rewrite K.
  f_equal. now apply order_val.
Qed.

(** All requested positions can be read back. *)
Lemma read_back ps : (forall e, In e ps -> fst e < n /\ snd e < n) ->
  exists mp : list (Z * R), (do es <- mapo (permuted RA F) ps; compute_all RA F es) = Ok mp /\
    forall e, In e ps -> look RA F mp e = Ok (C (fst e) (snd e)).
Proof.
  intro B. rewrite (mapo_ok _ order) by (intros e K; apply permuted_ok; now apply B). cbn [obind].
  destruct (compute_all_ok (map order ps)) as (mp & E & V).
  - intros e K. apply in_map_iff in K as (e0 & <- & K). apply B in K as [K1 K2]. now apply order_range.
  - exists mp. split; [exact E | ]. intros e K. destruct (B e K) as [K1 K2].
    apply look_ok; [exact K1 | exact K2 | ]. apply V. now apply in_map.
Qed.

(** ** Blocks on the diagonal. *)
Lemma triangle_in b0 b1 e : In e (triangle b0 b1) <-> fst e <= snd e /\ snd e < b1 - b0.
Proof.
  unfold triangle. rewrite in_flat_map. split.
  - intros (rr & K & E). apply in_map_iff in E as (cc & <- & E). apply in_seq in K. apply in_seq in E. cbn [fst snd]. lia.
  - intros [K1 K2]. exists (fst e). split; [apply in_seq; lia | ]. apply in_map_iff. exists (snd e).
    split; [now destruct e | ]. apply in_seq. lia.
Qed.

Lemma store_ok {V} (l : list V) : forall i v, i < length l -> exists l', store i v l = Ok l' /\ length l' = length l /\
  forall j, nth_error l' j = if i =? j then Some v else nth_error l j.
Proof.
  induction l as [ | x l IH]; intros [ | i] v Hi; cbn [length] in Hi; try lia.
  - exists (v :: l). split; [reflexivity | ]. split; [reflexivity | ]. intros [ | j]; reflexivity.
  - cbn [store]. destruct (IH i v ltac:(lia)) as (l' & E & L & N). rewrite E. cbn [obind].
    exists (x :: l'). split; [reflexivity | ]. split; [cbn [length]; now rewrite L | ].
    intros [ | j]; [reflexivity | ]. cbn [nth_error]. rewrite N. reflexivity.
Qed.

Lemma block_ok (mp : list (Z * R)) b0 b1 (cov : list R) : b1 <= n ->
  (forall e, In e (triangle b0 b1) -> look RA F mp (shift b0 e) = Ok (C (fst e + b0) (snd e + b0))) ->
  length cov = (b1 - b0) * (b1 - b0) ->
  exists cov' : list R, fold_left (fun o e =>
          do cov <- o;
          do v <- look RA F mp (shift b0 e);
          do cov <- store (fst e * (b1 - b0) + snd e) v cov;
          if fst e =? snd e then Ok cov else store (snd e * (b1 - b0) + fst e) v cov)
        (triangle b0 b1) (Ok cov) = Ok cov' /\ length cov' = (b1 - b0) * (b1 - b0) /\
    forall rr cc, rr < b1 - b0 -> cc < b1 - b0 ->
      nth_error cov' (rr * (b1 - b0) + cc) = Some (C (b0 + rr) (b0 + cc)).
Proof.
  intros Hb LK L.
  assert (G : forall es (cov : list R), (forall e, In e es -> In e (triangle b0 b1)) ->
    length cov = (b1 - b0) * (b1 - b0) ->
    exists cov' : list R, fold_left (fun o e =>
          do cov <- o;
          do v <- look RA F mp (shift b0 e);
          do cov <- store (fst e * (b1 - b0) + snd e) v cov;
          if fst e =? snd e then Ok cov else store (snd e * (b1 - b0) + fst e) v cov) es (Ok cov) = Ok cov' /\
      length cov' = (b1 - b0) * (b1 - b0) /\
      forall rr cc, rr < b1 - b0 -> cc < b1 - b0 ->
        (nth_error cov (rr * (b1 - b0) + cc) = Some (C (b0 + rr) (b0 + cc)) \/ In (rr, cc) es \/ In (cc, rr) es) ->
        nth_error cov' (rr * (b1 - b0) + cc) = Some (C (b0 + rr) (b0 + cc))).
  { induction es as [ | e es IH]; intros cov0 B L0.
    - exists cov0. split; [reflexivity | ]. split; [exact L0 | ]. intros rr cc _ _ [K | [[] | []]]. exact K.
    - cbn [fold_left obind]. pose proof (B e (or_introl eq_refl)) as Be.
      pose proof (LK e Be) as Le. apply triangle_in in Be as [B1 B2].
      rewrite Le. cbn [obind]. change (num RA) with R.
      set (d := b1 - b0) in *.
      destruct (store_ok cov0 (fst e * d + snd e) (C (fst e + b0) (snd e + b0))) as (c1 & E1 & L1 & N1); [rewrite L0; nia | ].
      rewrite E1. cbn [obind].
      assert (S2 : exists c2 : list R, (if fst e =? snd e then Ok c1 else store (snd e * d + fst e) (C (fst e + b0) (snd e + b0)) c1) = Ok c2 /\
        length c2 = length c1 /\ forall rr cc, rr < d -> cc < d ->
          (nth_error c1 (rr * d + cc) = Some (C (b0 + rr) (b0 + cc)) \/ (cc, rr) = e) -> nth_error c2 (rr * d + cc) = Some (C (b0 + rr) (b0 + cc))).
      { destruct (Nat.eqb_spec (fst e) (snd e)) as [EQ | NE].
        - exists c1. split; [reflexivity | ]. split; [reflexivity | ]. intros rr cc Hr Hc [K | K]; [exact K | ].
          rewrite N1. clear LK IH B. rewrite <- K in *. cbn [fst snd] in *. subst rr.
          rewrite Nat.eqb_refl. now rewrite (Nat.add_comm cc b0).
        - destruct (store_ok c1 (snd e * d + fst e) (C (fst e + b0) (snd e + b0))) as (c2 & E2 & L2 & N2); [rewrite L1, L0; nia | ].
          exists c2. split; [exact E2 | ]. split; [exact L2 | ]. intros rr cc Hr Hc K. rewrite N2.
          destruct (Nat.eqb_spec (snd e * d + fst e) (rr * d + cc)) as [Q | Q].
          + assert (snd e = rr) by nia. assert (fst e = cc) by nia. subst rr cc. f_equal.
            rewrite C_sym by lia. f_equal; lia.
          + destruct K as [K | K]; [exact K | ]. subst e. cbn [fst snd] in Q. congruence. }
      destruct S2 as (c2 & E2 & L2 & N2). change (num RA) with R in E2. rewrite E2.
      destruct (IH c2) as (c3 & E3 & L3 & N3); [intros; apply B; now right | congruence | ].
      exists c3. split; [exact E3 | ]. split; [exact L3 | ]. intros rr cc Hr Hc K. apply N3; [exact Hr | exact Hc | ].
      destruct K as [K | K].
      + left. apply N2; [exact Hr | exact Hc | ]. left. rewrite N1.
        destruct (Nat.eqb_spec (fst e * d + snd e) (rr * d + cc)) as [Q | Q]; [ | exact K].
        assert (fst e = rr) by nia. assert (snd e = cc) by nia. subst rr cc. f_equal. f_equal; lia.
      + assert (K' : (e = (rr, cc) \/ e = (cc, rr)) \/ (In (rr, cc) es \/ In (cc, rr) es)) by (cbn [In] in K; tauto).
        clear K. destruct K' as [[K | K] | K]; [ | | now right].
        * left. apply N2; [exact Hr | exact Hc | ]. left. rewrite N1. subst e. cbn [fst snd]. rewrite Nat.eqb_refl.
          f_equal. f_equal; lia.
        * left. apply N2; [exact Hr | exact Hc | ]. right. now symmetry. }
  destruct (G (triangle b0 b1) cov (fun e K => K) L) as (cov' & E & L' & N).
  exists cov'. split; [exact E | ]. split; [exact L' | ]. intros rr cc Hr Hc. apply N; [exact Hr | exact Hc | ].
  right. destruct (Nat.le_ge_cases rr cc); [left | right]; apply triangle_in; cbn [fst snd]; lia.
Qed.

Lemma combine_shift l : forall x, combine (x :: l) l =
  map (fun b => (nth b (x :: l) 0, nth b l 0)) (seq 0 (length l)).
Proof.
  induction l as [ | y l IH]; intro x; [reflexivity | ].
  cbn [length seq map]. rewrite <- seq_shift, map_map. change (combine (x :: y :: l) (y :: l)) with ((x, y) :: combine (y :: l) l). rewrite IH. reflexivity.
Qed.
Lemma ranges_eq bi : combine (0 :: bi) bi = map (fun b => (base_of bi b, base_of bi (S b))) (seq 0 (length bi)).
Proof. rewrite combine_shift. apply map_ext. now intros [ | b]. Qed.
Lemma combine_seq {V} (g : nat -> V) m : forall k, combine (seq k m) (map g (seq k m)) = map (fun b => (b, g b)) (seq k m).
Proof. induction m as [ | m IH]; intro k; [reflexivity | ]. cbn [seq map combine]. now rewrite IH. Qed.

Lemma mapo_exists {U V} (g : U -> outcome V) (Q : U -> V -> Prop) l :
  (forall x, In x l -> exists y, g x = Ok y /\ Q x y) -> exists ys, mapo g l = Ok ys /\ Forall2 Q l ys.
Proof.
  induction l as [ | x l IH]; intro K; [exists []; split; [reflexivity | constructor] | ].
  destruct (K x (or_introl eq_refl)) as (y & E & HQ').
  destruct IH as (ys & E' & F'); [intros; apply K; now right | ].
  exists (y :: ys). cbn [mapo]. rewrite E. cbn [obind]. rewrite E'. cbn [obind]. split; [reflexivity | now constructor].
Qed.
Lemma Forall2_nth {U V} (Q : U -> V -> Prop) l ys : Forall2 Q l ys -> length l = length ys /\
  forall k x, nth_error l k = Some x -> exists y, nth_error ys k = Some y /\ Q x y.
Proof.
  induction 1 as [ | x y l ys H0 H1 [L IH]].
  - split; [reflexivity | ]. intros [ | k] x K; discriminate.
  - split; [cbn [length]; now rewrite L | ]. intros [ | k] z K.
    + injection K as <-. exists y. auto.
    + now apply IH.
Qed.

Lemma blocks_result (mem : list (list R)) bi : layout bi -> total bi <= n -> length mem = length bi ->
  (forall b m, nth_error mem b = Some m -> length m = size_of bi b * size_of bi b) ->
  exists out : list (list R), covariance_blocks RA F mem bi = Ok out /\ length out = length bi /\
    forall b, b < length bi -> exists m, nth_error out b = Some m /\ length m = size_of bi b * size_of bi b /\
      forall i j, i < size_of bi b -> j < size_of bi b ->
        nth_error m (i * size_of bi b + j) = Some (C (base_of bi b + i) (base_of bi b + j)).
Proof.
  intros LB TB LM SM.
  assert (SZ : forall b, b < length bi -> base_of bi (S b) - base_of bi b = size_of bi b /\ base_of bi (S b) <= n).
  { intros b Hb. pose proof (layout_total bi b LB Hb) as T1. pose proof (LB b Hb) as T2.
    split; [symmetry; apply size_base | ]. rewrite size_base in T1. lia. }
  unfold covariance_blocks. cbv zeta.
  destruct (read_back (flat_map (fun q => map (shift (fst q)) (triangle (fst q) (snd q))) (combine (0 :: bi) bi)))
    as (mp & E & V).
  { intros e K. apply in_flat_map in K as ((b0 & b1) & K & K'). cbn [fst snd] in K'.
    apply in_map_iff in K' as (e0 & <- & K'). apply triangle_in in K'.
    rewrite ranges_eq in K. apply in_map_iff in K as (b & K & Kb). apply in_seq in Kb.
    assert (b0 = base_of bi b) by congruence. assert (b1 = base_of bi (S b)) by congruence. subst b0 b1.
    destruct (SZ b ltac:(lia)). cbn [fst snd shift]. lia. }
  destruct (mapo (permuted RA F) (flat_map (fun q => map (shift (fst q)) (triangle (fst q) (snd q))) (combine (0 :: bi) bi)))
    as [es | | | ] eqn:EM; cbn [obind] in E |- *; try discriminate.
  change (num RA) with R in *. rewrite E. cbn [obind].
  rewrite ranges_eq, combine_seq.
  destruct (mapo_exists (fun q : nat * (nat * nat) =>
      let '(i, (base, nbase)) := q in
      do cov <- load mem i;
      fold_left (fun o e =>
          do cov <- o;
          do v <- look RA F mp (shift base e);
          do cov <- store (fst e * (nbase - base) + snd e) v cov;
          if fst e =? snd e then Ok cov else store (snd e * (nbase - base) + fst e) v cov)
        (triangle base nbase) (Ok cov))
    (fun q (m : list R) => let b := fst q in length m = size_of bi b * size_of bi b /\
      forall i j, i < size_of bi b -> j < size_of bi b ->
        nth_error m (i * size_of bi b + j) = Some (C (base_of bi b + i) (base_of bi b + j)))
    (map (fun b => (b, (base_of bi b, base_of bi (S b)))) (seq 0 (length bi)))) as (out & EO & FO).
  - intros (b & (b0 & b1)) K. apply in_map_iff in K as (b' & K & Kb). apply in_seq in Kb.
    assert (b' = b) by congruence. assert (b0 = base_of bi b') by congruence. assert (b1 = base_of bi (S b')) by congruence. subst b0 b1 b'.
    destruct (SZ b ltac:(lia)) as [S1 S2].
    destruct (nth_error mem b) as [cov | ] eqn:EC; [ | apply nth_error_None in EC; lia].
    rewrite (load_some mem b cov EC). cbn [obind fst].
    destruct (block_ok mp (base_of bi b) (base_of bi (S b)) cov S2) as (cov' & E1 & L1 & N1).
    + intros e Ke. change (C (fst e + base_of bi b) (snd e + base_of bi b))
        with (C (fst (shift (base_of bi b) e)) (snd (shift (base_of bi b) e))).
      apply V. apply in_flat_map. exists (base_of bi b, base_of bi (S b)). split.
      * rewrite ranges_eq. apply in_map_iff. exists b. split; [reflexivity | apply in_seq; lia].
      * cbn [fst snd]. apply in_map. exact Ke.
    + rewrite S1. now apply SM.
    + exists cov'. rewrite S1 in L1, N1. split; [exact E1 | ]. split; [exact L1 | exact N1].
  - exists out. split; [exact EO | ]. apply Forall2_nth in FO as [L FO].
    rewrite map_length, seq_length in L. split; [now symmetry | ].
    intros b Hb. destruct (FO b (b, (base_of bi b, base_of bi (S b)))) as (m & E1 & Q).
    + rewrite nth_error_map, (nth_error_nth' _ 0) by (rewrite seq_length; exact Hb). rewrite seq_nth by exact Hb. reflexivity.
    + exists m. split; [exact E1 | exact Q].
Qed.

(** ** Chosen blocks. *)
Definition cov_block (l : list nat) (r c : nat) : list (list R) :=
  map (fun i => map (fun j => C (base_of l r + i) (base_of l c + j)) (seq 0 (size_of l c))) (seq 0 (size_of l r)).
Lemma cov_block_shaped l r c : shaped RA (size_of l r) (size_of l c) (cov_block l r c) = true.
Proof.
  apply shaped_iff. unfold cov_block. split; [now rewrite map_length, seq_length | ].
  apply Forall_forall. intros row K. apply in_map_iff in K as (i & <- & _). now rewrite map_length, seq_length.
Qed.

Lemma alloc_fold l bs : (forall b, In b bs -> fst b < length l /\ snd b < length l) -> forall m : sbm RA,
  wf m -> owns m = true -> rbi m = l -> cbi m = l ->
  exists m' : sbm RA, fold_left (fun o b => do m <- o; update RA (fst b) (snd b) (fun B => Ok B) m) bs (Ok m) = Ok m' /\
    wf m' /\ owns m' = true /\ rbi m' = l /\ cbi m' = l /\
    forall r c, blk m' r c <> None <-> blk m r c <> None \/ In (r, c) bs.
Proof.
  induction bs as [ | (br & bc) bs IH]; intros B m W O ER EC.
  - exists m. split; [reflexivity | ]. do 4 (split; [assumption | ]). intros r c. cbn [In]. tauto.
  - destruct (B _ (or_introl eq_refl)) as [B1 B2]. cbn [fst snd] in B1, B2. cbn [fold_left obind fst snd].
    rewrite (update_ok RA br bc _ (seen RA m br bc) m W O) by (rewrite ?ER, ?EC; auto).
    destruct (IH ltac:(intros; apply B; now right) (put RA br bc (seen RA m br bc) m)) as (m' & E & W' & O' & R' & C' & V).
    + apply put_wf; [exact W | now rewrite ER | ]. now apply seen_shaped.
    + now rewrite put_owns.
    + now rewrite put_rbi.
    + now rewrite put_cbi.
    + exists m'. split; [exact E | ]. do 4 (split; [assumption | ]). intros r c. rewrite V.
      rewrite put_blk by (rewrite (wf_cols _ _ W), EC; exact B2). cbn [In].
      destruct (Nat.eqb_spec br r) as [-> | Hr]; cbn [andb];
        [destruct (Nat.eqb_spec bc c) as [-> | Hc] | ].
      * split; [tauto | ]. intros _. left. discriminate.
      * split; [tauto | ]. intros [K | [K | K]]; [tauto | congruence | tauto].
      * split; [tauto | ]. intros [K | [K | K]]; [tauto | congruence | tauto].
Qed.

Lemma fill_fold l (mp : list (Z * R)) bs : (forall b, In b bs -> fst b < length l /\ snd b < length l) ->
  (forall b e, In b bs -> In e (concat (square_of l b)) -> look RA F mp e = Ok (C (fst e) (snd e))) ->
  forall m : sbm RA, wf m -> owns m = true -> rbi m = l -> cbi m = l ->
  exists m' : sbm RA, fold_left (fun o b =>
      do m <- o;
      do B <- mapo (mapo (look RA F mp)) (square_of l b);
      update RA (fst b) (snd b) (assign RA B) m) bs (Ok m) = Ok m' /\
    wf m' /\ owns m' = true /\ rbi m' = l /\ cbi m' = l /\
    (forall r c, In (r, c) bs -> blk m' r c = Some (cov_block l r c)) /\
    (forall r c, ~ In (r, c) bs -> blk m' r c = blk m r c).
Proof.
  induction bs as [ | (br & bc) bs IH]; intros B LK m W O ER EC.
  - exists m. split; [reflexivity | ]. do 4 (split; [assumption | ]). split; [intros r c [] | reflexivity].
  - destruct (B _ (or_introl eq_refl)) as [B1 B2]. cbn [fst snd] in B1, B2. cbn [fold_left obind fst snd].
    assert (EB : mapo (mapo (look RA F mp)) (square_of l (br, bc)) = Ok (cov_block l br bc)).
    { unfold square_of, cov_block. cbn [fst snd].
      rewrite (mapo_ok _ (map (fun e => C (fst e) (snd e)))).
      - f_equal. rewrite map_map. apply map_ext. intro i. rewrite map_map. reflexivity.
      - intros row K. apply mapo_ok. intros e K'. apply (LK (br, bc)); [now left | ].
        apply in_concat. exists row. split; [exact K | exact K']. }
    change (num RA) with R in *. rewrite EB. cbn [obind].
    rewrite (update_ok RA br bc _ (cov_block l br bc) m W O) by (rewrite ?ER, ?EC; auto).
    destruct (IH ltac:(intros; apply B; now right) ltac:(intros b e K1 K2; apply (LK b); [now right | exact K2])
      (put RA br bc (cov_block l br bc) m)) as (m' & E & W' & O' & R' & C' & V1 & V2).
    + apply put_wf; [exact W | now rewrite ER | ]. rewrite ER, EC. apply cov_block_shaped.
    + now rewrite put_owns.
    + now rewrite put_rbi.
    + now rewrite put_cbi.
    + exists m'. split; [exact E | ]. do 4 (split; [assumption | ]).
      assert (D : forall r c, {In (r, c) bs} + {~ In (r, c) bs}) by (intros; apply in_dec; decide equality; apply Nat.eq_dec).
      split.
      * intros r c K. destruct (D r c) as [Y | Nn]; [now apply V1 | ].
        destruct K as [K | K]; [ | contradiction]. injection K as <- <-. rewrite V2 by assumption.
        rewrite put_blk by (rewrite (wf_cols _ _ W), EC; exact B2). now rewrite !Nat.eqb_refl.
      * intros r c K. cbn [In] in K. rewrite V2 by tauto.
        rewrite put_blk by (rewrite (wf_cols _ _ W), EC; exact B2).
        destruct (Nat.eqb_spec br r) as [-> | Hr]; cbn [andb]; [ | reflexivity].
        destruct (Nat.eqb_spec bc c) as [-> | Hc]; [tauto | reflexivity].
Qed.

Lemma sparse_result l bs : layout l -> total l <= n -> (forall b, In b bs -> fst b < length l /\ snd b < length l) ->
  exists m : sbm RA, covariance_sparse RA F l bs = Ok m /\ wf m /\ rbi m = l /\ cbi m = l /\
    (forall r c, blk m r c <> None <-> In (r, c) bs) /\
    forall br i bc j, In (br, bc) bs -> i < size_of l br -> j < size_of l bc ->
      el m (base_of l br + i) (base_of l bc + j) = C (base_of l br + i) (base_of l bc + j).
Proof.
  intros LB TB B. unfold covariance_sparse.
  destruct (alloc_fold l bs B (fresh RA l l) (fresh_wf RA l l LB LB) eq_refl eq_refl eq_refl)
    as (m1 & E1 & W1 & O1 & R1 & C1 & V1).
  rewrite E1. cbn [obind].
  destruct (read_back (flat_map (fun b => concat (square_of l b)) bs)) as (mp & E & V).
  { intros e K. apply in_flat_map in K as (b & Kb & K). destruct (B b Kb) as [B1 B2].
    apply in_concat in K as (row & K1 & K2). unfold square_of in K1. apply in_map_iff in K1 as (i & <- & Ki).
    apply in_map_iff in K2 as (j & <- & Kj). apply in_seq in Ki. apply in_seq in Kj. cbn [fst snd].
    pose proof (layout_total l _ LB B1). pose proof (layout_total l _ LB B2). lia. }
  destruct (mapo (permuted RA F) (flat_map (fun b => concat (square_of l b)) bs)) as [es | | | ] eqn:EM;
    cbn [obind] in E |- *; try discriminate.
  change (num RA) with R in *. rewrite E. cbn [obind].
  destruct (fill_fold l mp bs B) with (m := m1) as (m2 & E2 & W2 & O2 & R2 & C2 & V2 & V3); auto.
  { intros b e Kb K. apply V. apply in_flat_map. exists b. auto. }
  exists m2. split; [exact E2 | ]. do 3 (split; [assumption | ]). split.
  - intros r c. assert (D : {In (r, c) bs} + {~ In (r, c) bs}) by (apply in_dec; decide equality; apply Nat.eq_dec).
    destruct D as [Y | Nn].
    + rewrite V2 by exact Y. split; [auto | discriminate].
    + rewrite V3 by exact Nn. rewrite V1. rewrite fresh_blk. tauto.
  - intros br i bc j K Hi Hj. destruct (B _ K) as [B1 B2]. cbn [fst snd] in B1, B2.
    assert (EL : el m2 (base_of (rbi m2) br + i) (base_of (cbi m2) bc + j) = val_at m2 br i bc j).
    { apply el_at; auto; rewrite ?R2, ?C2; auto. }
    rewrite R2, C2 in EL. rewrite EL. unfold val_at. rewrite (V2 br bc K). unfold cov_block.
    assert (N1 : nth i (map (fun i => map (fun j => C (base_of l br + i) (base_of l bc + j)) (seq 0 (size_of l bc)))
                  (seq 0 (size_of l br))) [] =
                map (fun j => C (base_of l br + i) (base_of l bc + j)) (seq 0 (size_of l bc))).
    { apply nth_error_nth. rewrite nth_error_map, (nth_error_nth' _ 0) by (rewrite seq_length; exact Hi).
      now rewrite seq_nth by exact Hi. }
    change (num RA) with R. rewrite N1. apply nth_error_nth.
    rewrite nth_error_map, (nth_error_nth' _ 0) by (rewrite seq_length; exact Hj). now rewrite seq_nth by exact Hj.
Qed.
End Cov.

Lemma set_factor_ok n p i (x : list R) pinv f : lower_factor n p i x f ->
  exists F : chol RA, set_factor RA n p i x pinv = Ok F /\ cn F = n /\ lp F = p /\ li F = i /\ lx F = x /\
    perm F = pinv /\ forall r, r < n -> nth_error (rdiag F) r = Some (1 / f r r)%R.
Proof.
  intro HL. unfold set_factor.
  rewrite (mapo_ok _ (fun r => (1 / f r r)%R)).
  - cbn [obind]. eexists. split; [reflexivity | ]. cbn [cn lp li lx perm rdiag]. do 5 (split; [reflexivity | ]).
    intros r Hr. rewrite nth_error_map, (nth_error_nth' _ 0) by (rewrite seq_length; exact Hr).
    rewrite seq_nth by exact Hr. reflexivity.
  - intros r K. apply in_seq in K. destruct (HL r ltac:(lia)) as (d & es & (a & S1 & _ & S3) & _ & _ & _ & V).
    rewrite (load_some p r a S1). cbn [obind]. destruct (S3 0 r d eq_refl) as [_ X]. rewrite Nat.add_0_r in X.
    change (num RA) with R. rewrite (load_some (V := R) x a d X). cbn [obind]. rewrite V. cbn [value_in]. now rewrite Nat.eqb_refl.
Qed.
