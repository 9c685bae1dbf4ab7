(** * Proofs about tag decoding *)
From Coq Require Import NArith ZArith List Bool Arith Lia ZifyBool.
From Verif Require Import Base TagModel TagSpec.
Import ListNotations.
Local Open Scope nat_scope.

(** ** Bits *)
Lemma bit_0 w : bit w 0 = N.odd w. Proof. unfold bit. apply N.bit0_odd. Qed.
Lemma bit_S w i : bit w (S i) = bit (N.div2 w) i.
Proof. unfold bit. rewrite N.div2_spec, N.shiftr_spec by lia. f_equal. lia. Qed.
Lemma bit_zero i : bit 0 i = false. Proof. apply N.bits_0. Qed.
Lemma bit_ext a b : (forall i, bit a i = bit b i) -> a = b.
Proof. intros H. apply N.bits_inj. intros n. specialize (H (N.to_nat n)). unfold bit in H. rewrite N2Nat.id in H. exact H. Qed.
Lemma bit_high n w i : (w < 2 ^ N.of_nat n)%N -> n <= i -> bit w i = false.
Proof.
  intros L H. unfold bit. destruct (N.eq_dec w 0) as [ -> | NZ ]; [ apply N.bits_0 | ].
  apply N.bits_above_log2. apply N.log2_lt_pow2 in L; lia.
Qed.
Lemma low_of_bits n w : (forall i, n <= i -> bit w i = false) -> (w < 2 ^ N.of_nat n)%N.
Proof.
  intros H. destruct (N.eq_dec w 0) as [ -> | NZ ]; [ apply N.neq_0_lt_0, N.pow_nonzero; lia | ].
  apply N.log2_lt_pow2; [ lia | ]. destruct (N.lt_ge_cases (N.log2 w) (N.of_nat n)) as [ | G ]; [ assumption | exfalso ].
  specialize (H (N.to_nat (N.log2 w)) ltac:(lia)). unfold bit in H. rewrite N2Nat.id, N.bit_log2 in H by exact NZ. discriminate.
Qed.
Lemma bits_word_spec n : forall f i, bit (bits_word n f) i = (i <? n) && f i.
Proof.
  induction n as [ | n IH ]; intros f i; [ apply bit_zero | ]. cbn [bits_word].
  destruct i as [ | i ].
  - rewrite bit_0. cbn [Nat.ltb Nat.leb andb]. rewrite N.odd_add_mul_2. destruct (f 0); reflexivity.
  - rewrite bit_S. replace (N.div2 (N.b2n (f 0) + 2 * bits_word n (fun j => f (S j)))) with (bits_word n (fun j => f (S j))); [ rewrite IH; reflexivity | ].
    rewrite N.div2_div; apply (N.div_unique _ 2 _ (N.b2n (f 0))); destruct (f 0); cbn [N.b2n]; lia.
Qed.

(** ** Counting *)
Fixpoint cnt (n : nat) (f : nat -> bool) : nat := match n with O => 0 | S m => cnt m f + (if f m then 1 else 0) end.
Lemma filter_seq f n : length (filter f (seq 0 n)) = cnt n f.
Proof. induction n as [ | n IH ]; [ reflexivity | ]. rewrite seq_S, filter_app, app_length, IH. cbn. destruct (f n); reflexivity. Qed.
Lemma differing_cnt a b : differing a b = cnt 64 (fun i => xorb (bit a i) (bit b i)).
Proof. apply filter_seq. Qed.
Lemma cnt_ext n f g : (forall i, i < n -> f i = g i) -> cnt n f = cnt n g.
Proof. induction n as [ | n IH ]; intros H; [ reflexivity | ]. cbn [cnt]. rewrite IH, H by (intros; auto with arith). reflexivity. Qed.
Lemma cnt_first n f : cnt (S n) f = (if f 0 then 1 else 0) + cnt n (fun i => f (S i)).
Proof. induction n as [ | n IH ]; [ cbn; lia | ]. cbn [cnt] in *. rewrite IH. lia. Qed.
Lemma cnt_zero n f : (forall i, i < n -> f i = false) -> cnt n f = 0.
Proof. induction n as [ | n IH ]; intros H; [ reflexivity | ]. cbn [cnt]. rewrite IH, H by auto with arith. reflexivity. Qed.
Lemma cnt_app a b f : cnt (a + b) f = cnt a f + cnt b (fun i => f (a + i)).
Proof. induction b as [ | b IH ]; [ rewrite Nat.add_0_r; cbn; lia | ]. rewrite Nat.add_succ_r. cbn [cnt]. rewrite IH. lia. Qed.
Lemma cnt_triangle n f g h : (forall i, i < n -> xorb (f i) (h i) = true -> xorb (f i) (g i) = true \/ xorb (g i) (h i) = true) ->
  cnt n (fun i => xorb (f i) (h i)) <= cnt n (fun i => xorb (f i) (g i)) + cnt n (fun i => xorb (g i) (h i)).
Proof.
  induction n as [ | n IH ]; intros H; [ cbn; lia | ]. cbn [cnt]. specialize (IH ltac:(auto with arith)).
  specialize (H n ltac:(lia)). destruct (xorb (f n) (h n)), (xorb (f n) (g n)), (xorb (g n) (h n)); lia || (destruct H; [ reflexivity | discriminate | discriminate ]).
Qed.
Lemma differing_triangle a b c : differing a c <= differing a b + differing b c.
Proof.
  rewrite !differing_cnt. apply cnt_triangle. intros i _. destruct (bit a i), (bit b i), (bit c i); cbn; auto.
Qed.
Lemma differing_comm a b : differing a b = differing b a.
Proof. rewrite !differing_cnt. apply cnt_ext. intros. apply xorb_comm. Qed.
Lemma differing_refl a : differing a a = 0.
Proof. rewrite differing_cnt. apply cnt_zero. intros. apply xorb_nilpotent. Qed.
(** Double counts: rows of cells, exchanged and reversed. *)
Fixpoint sumn (n : nat) (f : nat -> nat) : nat := match n with O => 0 | S m => sumn m f + f m end.
Lemma sumn_ext n f g : (forall i, i < n -> f i = g i) -> sumn n f = sumn n g.
Proof. induction n as [ | n IH ]; intros H; [ reflexivity | ]. cbn [sumn]. rewrite IH, H by (intros; auto with arith). reflexivity. Qed.
Lemma sumn_plus n f g : sumn n (fun i => f i + g i) = sumn n f + sumn n g.
Proof. induction n as [ | n IH ]; [ reflexivity | ]. cbn [sumn]. rewrite IH. lia. Qed.
Lemma sumn_swap n m f : sumn n (fun i => sumn m (f i)) = sumn m (fun j => sumn n (fun i => f i j)).
Proof.
  induction n as [ | n IH ]; cbn [sumn].
  - induction m as [ | m IHm ]; [ reflexivity | ]. cbn [sumn]. rewrite <- IHm. reflexivity.
  - rewrite IH, <- sumn_plus. reflexivity.
Qed.
Lemma sumn_first n f : sumn (S n) f = f 0 + sumn n (fun i => f (S i)).
Proof. induction n as [ | n IH ]; [ cbn; lia | ]. cbn [sumn] in *. rewrite IH. lia. Qed.
Lemma sumn_rev n f : sumn n (fun i => f (n - 1 - i)) = sumn n f.
Proof.
  revert f. induction n as [ | n IH ]; intros f; [ reflexivity | ]. rewrite sumn_first. cbn [sumn]. rewrite <- (IH f).
  replace (S n - 1 - 0) with n by lia. rewrite Nat.add_comm. f_equal. apply sumn_ext. intros i Hi. f_equal. lia.
Qed.
Definition b2 (b : bool) : nat := if b then 1 else 0.
Lemma cnt_sumn n f : cnt n f = sumn n (fun i => b2 (f i)).
Proof. induction n as [ | n IH ]; [ reflexivity | ]. cbn [cnt sumn]. rewrite IH. reflexivity. Qed.
Lemma cnt_rows d m f : cnt (m * d) f = sumn m (fun y => sumn d (fun x => b2 (f (y * d + x)))).
Proof.
  induction m as [ | m IH ]; [ reflexivity | ]. cbn [sumn]. replace (S m * d) with (m * d + d) by lia. rewrite cnt_app, IH. f_equal.
  rewrite cnt_sumn. reflexivity.
Qed.

(** ** Pictures *)
Lemma bit_word_of d g y x : y < d -> x < d -> picture d (word_of d g) y x = g y x.
Proof.
  intros Hy Hx. unfold picture, word_of. rewrite bits_word_spec.
  destruct (Nat.ltb_spec (y * d + (d - 1 - x)) (d * d)) as [ | G ]; [ | exfalso; nia ]. cbn [andb].
  replace ((y * d + (d - 1 - x)) / d) with y.
  - replace ((y * d + (d - 1 - x)) mod d) with (d - 1 - x); [ f_equal; lia | ].
    apply (Nat.mod_unique _ d y); [ lia | ring ].
  - apply (Nat.div_unique _ d _ (d - 1 - x)); [ lia | ring ].
Qed.
Lemma word_of_fits d g : fits d (word_of d g).
Proof.
  apply low_of_bits. intros i Hi. unfold word_of. rewrite bits_word_spec. destruct (Nat.ltb_spec i (d * d)); [ lia | reflexivity ].
Qed.
Lemma turn_word_fits d w : fits d (turn_word d w). Proof. apply word_of_fits. Qed.
Lemma turns_fits d k w : fits d w -> fits d (turns d k w).
Proof. destruct k; [ trivial | ]. intros _. apply turn_word_fits. Qed.
Lemma picture_turn d w y x : y < d -> x < d -> picture d (turn_word d w) y x = picture d w x (d - 1 - y).
Proof. intros Hy Hx. unfold turn_word. rewrite bit_word_of by assumption. reflexivity. Qed.
Lemma picture_ext d a b : fits d a -> fits d b -> (forall y x, y < d -> x < d -> picture d a y x = picture d b y x) -> a = b.
Proof.
  intros FA FB H. apply bit_ext. intros i. destruct (Nat.ltb_spec i (d * d)) as [ L | G ].
  - assert (NZ : d <> 0) by (destruct d; [ cbn in L; lia | lia ]).
    specialize (H (i / d) (d - 1 - i mod d)). pose proof (Nat.mod_upper_bound i d NZ). pose proof (Nat.div_mod i d NZ).
    unfold picture in H. replace (i / d * d + (d - 1 - (d - 1 - i mod d))) with i in H by nia.
    apply H; [ apply Nat.div_lt_upper_bound; lia | lia ].
  - rewrite (bit_high _ _ _ FA G), (bit_high _ _ _ FB G). reflexivity.
Qed.
Lemma turns_plus d j k w : turns d (j + k) w = turns d j (turns d k w).
Proof. induction j as [ | j IH ]; [ reflexivity | ]. cbn [Nat.add turns]. rewrite IH. reflexivity. Qed.
Lemma turns_4 d w : fits d w -> turns d 4 w = w.
Proof.
  intros F. apply (picture_ext d); [ apply turns_fits; exact F | exact F | ]. intros y x Hy Hx. cbn [turns].
  rewrite !picture_turn by lia. f_equal; lia.
Qed.
Lemma turns_mod d k w : fits d w -> turns d k w = turns d (k mod 4) w.
Proof.
  intros F. rewrite (Nat.div_mod k 4) at 1 by lia. rewrite Nat.add_comm, turns_plus. f_equal.
  induction (k / 4) as [ | n IH ]; [ reflexivity | ]. replace (4 * S n) with (4 * n + 4) by lia. rewrite turns_plus, turns_4 by exact F. exact IH.
Qed.

(** Differing cells of pictures. *)
Lemma differing_cells d a b : d <= 8 -> fits d a -> fits d b ->
  differing a b = sumn d (fun y => sumn d (fun x => b2 (xorb (picture d a y x) (picture d b y x)))).
Proof.
  intros D FA FB. rewrite differing_cnt. replace 64 with (d * d + (64 - d * d)) by nia. rewrite cnt_app.
  rewrite (cnt_zero (64 - d * d)), cnt_rows, Nat.add_0_r.
  - apply sumn_ext. intros y Hy. rewrite <- sumn_rev. reflexivity.
  - intros i _. rewrite (bit_high _ _ _ FA), (bit_high _ _ _ FB) by lia. reflexivity.
Qed.
Lemma differing_turn d a b : d <= 8 -> fits d a -> fits d b -> differing (turn_word d a) (turn_word d b) = differing a b.
Proof.
  intros D FA FB. rewrite !(differing_cells d) by (first [ assumption | apply turn_word_fits ]).
  rewrite (sumn_ext d _ (fun y => sumn d (fun x => b2 (xorb (picture d a x (d - 1 - y)) (picture d b x (d - 1 - y)))))).
  - rewrite sumn_swap. apply sumn_ext. intros x Hx. apply (sumn_rev d (fun y => b2 (xorb (picture d a x y) (picture d b x y)))).
  - intros y Hy. apply sumn_ext. intros x Hx. rewrite !picture_turn by assumption. reflexivity.
Qed.
Lemma differing_turns d k a b : d <= 8 -> fits d a -> fits d b -> differing (turns d k a) (turns d k b) = differing a b.
Proof.
  intros D FA FB. induction k as [ | k IH ]; [ reflexivity | ]. cbn [turns]. rewrite differing_turn by (first [ assumption | apply turns_fits; assumption ]). exact IH.
Qed.

(** ** The loops that push bits *)
Definition push (w : N) (b : bool) : N := let c := (N.shiftl w 1 mod word64)%N in if b then N.lor c 1 else c.
Lemma push_0 w b : bit (push w b) 0 = b.
Proof.
  unfold push, bit, word64. cbv zeta. change (N.of_nat 0) with 0%N.
  destruct b; [ rewrite N.lor_spec | ]; rewrite N.mod_pow2_bits_low, N.shiftl_spec_low by lia; reflexivity.
Qed.
Lemma push_S w b i : i < 63 -> bit (push w b) (S i) = bit w i.
Proof.
  intros H. unfold push, bit, word64. cbv zeta.
  assert (E : N.testbit (N.shiftl w 1 mod 2 ^ 64) (N.of_nat (S i)) = N.testbit w (N.of_nat i)).
  { rewrite N.mod_pow2_bits_low, N.shiftl_spec_high by lia. f_equal. lia. }
  destruct b; [ | exact E ]. rewrite N.lor_spec, E. replace (N.testbit 1 (N.of_nat (S i))) with false; [ apply orb_false_r | ].
  symmetry. apply N.bits_above_log2. cbn. lia.
Qed.
Lemma push_high w b i : 64 <= i -> bit (push w b) i = false.
Proof.
  intros H. unfold push, bit, word64. cbv zeta.
  assert (E : N.testbit (N.shiftl w 1 mod 2 ^ 64) (N.of_nat i) = false) by (apply N.mod_pow2_bits_high; lia).
  destruct b; [ | exact E ]. rewrite N.lor_spec, E. apply N.bits_above_log2. cbn. lia.
Qed.
(** The last [m] bits of [G] below [t] are in the word. *)
Definition holds (t m : nat) (G : nat -> bool) (w : N) : Prop := forall i, bit w i = (i <? m) && G (t - m + i).
Lemma holds_push t m G w : t <= 64 -> m < t -> holds t m G w -> holds t (S m) G (push w (G (t - m - 1))).
Proof.
  intros T M H i. destruct i as [ | i ].
  - rewrite push_0. cbn. f_equal. lia.
  - destruct (Nat.lt_ge_cases i 63) as [ L | L ].
    + rewrite push_S, H by exact L. replace (S i <? S m) with (i <? m) by reflexivity. f_equal. f_equal. lia.
    + rewrite push_high by lia. destruct (Nat.ltb_spec (S i) (S m)); [ lia | reflexivity ].
Qed.
Lemma holds_all d g w : holds (d * d) (d * d) (fun i => g (i / d) (d - 1 - i mod d)) w -> w = word_of d g.
Proof. intros H. apply bit_ext. intros i. rewrite H. unfold word_of. rewrite bits_word_spec. rewrite Nat.sub_diag. reflexivity. Qed.
Lemma holds_start t G : holds t 0 G 0%N.
Proof. intros i. apply bit_zero. Qed.
Lemma cell d r c : r < d -> c < d -> let i := d * d - ((d - 1 - r) * d + c) - 1 in i / d = r /\ i mod d = d - 1 - c.
Proof.
  intros R C. cbv zeta. replace (d * d - ((d - 1 - r) * d + c) - 1) with (d * r + (d - 1 - c)) by nia.
  split; [ symmetry; apply (Nat.div_unique _ d r (d - 1 - c)); lia | symmetry; apply (Nat.mod_unique _ d r); lia ].
Qed.

Lemma rotate_bit_push w b wr : b < 64 -> rotate_bit w b wr = Ok (push wr (bit w b)).
Proof.
  intros H. unfold rotate_bit, push, bit. destruct (Nat.ltb_spec b 64); [ | lia ]. cbv zeta. f_equal.
  assert (E : N.land w (N.shiftl 1 (N.of_nat b)) = if N.testbit w (N.of_nat b) then N.shiftl 1 (N.of_nat b) else 0%N).
  { apply N.bits_inj. intros k. rewrite N.land_spec, N.shiftl_1_l, N.pow2_bits_eqb. destruct (N.eqb_spec (N.of_nat b) k) as [ <- | NE ].
    - destruct (N.testbit w (N.of_nat b)); [ rewrite N.pow2_bits_true; reflexivity | reflexivity ].
    - rewrite andb_false_r. destruct (N.testbit w (N.of_nat b)); [ | reflexivity ].
      rewrite N.pow2_bits_false by congruence. reflexivity. }
  rewrite E. destruct (N.testbit w (N.of_nat b)); [ | reflexivity ].
  destruct (N.eqb_spec (N.shiftl 1 (N.of_nat b)) 0) as [ Z | ]; [ | reflexivity ].
  rewrite N.shiftl_1_l in Z. apply N.pow_nonzero in Z; [ contradiction | lia ].
Qed.
Lemma rotate90_spec w d : d <= 8 -> rotate90 w d = Ok (turn_word d w).
Proof.
  intros D. unfold rotate90. set (G := fun i => turn d (picture d w) (i / d) (d - 1 - i mod d)).
  assert (ROW : forall r, r < d -> forall n c wr, c + n = d -> holds (d * d) ((d - 1 - r) * d + c) G wr ->
    exists wr', rotate_row w d r c n wr = Ok wr' /\ holds (d * d) ((d - 1 - r) * d + d) G wr').
  { intros r R. induction n as [ | n IH ]; intros c wr E H; cbn [rotate_row].
    - exists wr. split; [ reflexivity | ]. replace ((d - 1 - r) * d + d) with ((d - 1 - r) * d + c) by lia. exact H.
    - rewrite rotate_bit_push by nia. cbn [obind].
      assert (GB : G (d * d - ((d - 1 - r) * d + c) - 1) = bit w (r + d * c)).
      { unfold G. destruct (cell d r c R ltac:(lia)) as (-> & ->). unfold turn, picture. f_equal. nia. }
      rewrite <- GB. apply IH; [ lia | ]. replace ((d - 1 - r) * d + S c) with (S ((d - 1 - r) * d + c)) by lia.
      apply holds_push; [ nia | nia | exact H ]. }
  assert (ROWS : forall n wr, n <= d -> holds (d * d) ((d - n) * d) G wr ->
    exists wr', rotate_rows w d n wr = Ok wr' /\ holds (d * d) (d * d) G wr').
  { induction n as [ | r IH ]; intros wr L H; cbn [rotate_rows].
    - exists wr. split; [ reflexivity | ]. rewrite Nat.sub_0_r in H. exact H.
    - destruct (ROW r ltac:(lia) d 0 wr ltac:(lia)) as (w1 & -> & H1).
      { rewrite Nat.add_0_r. replace (d - 1 - r) with (d - S r) by lia. exact H. }
      cbn [obind]. apply IH; [ lia | ]. replace ((d - r) * d) with ((d - 1 - r) * d + d) by nia. exact H1. }
  destruct (ROWS d 0%N (le_n _)) as (wr & -> & H).
  { rewrite Nat.sub_diag. apply holds_start. }
  f_equal. apply holds_all in H. exact H.
Qed.
Lemma rotate90_big w d : 8 < d -> rotate90 w d = UB.
Proof.
  intros D. unfold rotate90. destruct d as [ | r ]; [ lia | ]. cbn [rotate_rows].
  assert (ROW : forall n c wr, c + S n = S r -> rotate_row w (S r) r c (S n) wr = UB).
  { induction n as [ | n IH ]; intros c wr E; cbn [rotate_row]; unfold rotate_bit at 1.
    - destruct (Nat.ltb_spec (r + S r * c) 64) as [ L | ]; [ exfalso; assert (c = r) by lia; subst c; nia | reflexivity ].
    - destruct (r + S r * c <? 64); [ | reflexivity ]. cbn [obind]. apply IH. lia. }
  rewrite ROW by lia. reflexivity.
Qed.

(** ** Reading the code *)
Lemma read_code_spec sample d : d <= 8 ->
  ((forall y x, y < d -> x < d -> sample y x <> None) ->
     read_code sample d = Some (word_of d (fun y x => match sample y x with Some b => b | None => false end))) /\
  (~ (forall y x, y < d -> x < d -> sample y x <> None) -> read_code sample d = None).
Proof.
  intros D. set (g := fun y x => match sample y x with Some b => b | None => false end).
  set (G := fun i => g (i / d) (d - 1 - i mod d)). split.
  - intros ALL.
    assert (ROW : forall r, r < d -> forall n c wr, c + n = d -> holds (d * d) ((d - 1 - r) * d + c) G wr ->
      exists wr', read_row sample r c n (wr, false) = (wr', false) /\ holds (d * d) ((d - 1 - r) * d + d) G wr').
    { intros r R. induction n as [ | n IH ]; intros c wr E H; cbn [read_row].
      - exists wr. split; [ reflexivity | ]. replace ((d - 1 - r) * d + d) with ((d - 1 - r) * d + c) by lia. exact H.
      - assert (GB : sample r c = Some (G (d * d - ((d - 1 - r) * d + c) - 1))).
        { unfold G. destruct (cell d r c R ltac:(lia)) as (-> & ->). unfold g. replace (d - 1 - (d - 1 - c)) with c by lia.
          specialize (ALL r c R ltac:(lia)). destruct (sample r c); [ reflexivity | contradiction ]. }
        rewrite GB. cbn [fst snd]. set (b := G _). change (if b then _ else _) with (push wr b).
        apply IH; [ lia | ]. replace ((d - 1 - r) * d + S c) with (S ((d - 1 - r) * d + c)) by lia.
        apply holds_push; [ nia | nia | exact H ]. }
    assert (ROWS : forall n wr, n <= d -> holds (d * d) ((d - n) * d) G wr ->
      exists wr', read_rows sample d n (wr, false) = (wr', false) /\ holds (d * d) (d * d) G wr').
    { induction n as [ | r IH ]; intros wr L H; cbn [read_rows].
      - exists wr. split; [ reflexivity | ]. rewrite Nat.sub_0_r in H. exact H.
      - destruct (ROW r ltac:(lia) d 0 wr ltac:(lia)) as (w1 & -> & H1).
        { rewrite Nat.add_0_r. replace (d - 1 - r) with (d - S r) by lia. exact H. }
        apply IH; [ lia | ]. replace ((d - r) * d) with ((d - 1 - r) * d + d) by nia. exact H1. }
    unfold read_code. destruct (ROWS d 0%N (le_n _)) as (wr & -> & H).
    { rewrite Nat.sub_diag. apply holds_start. }
    f_equal. apply holds_all in H. exact H.
  - intros NOT.
    assert (ROW : forall r n c s, snd (read_row sample r c n s) = snd s || existsb (fun x => match sample r x with None => true | _ => false end) (seq c n)).
    { intros r. induction n as [ | n IH ]; intros c s; cbn [read_row seq existsb]; [ rewrite orb_false_r; reflexivity | ].
      rewrite IH. destruct (sample r c); cbn [snd]; [ reflexivity | cbn; destruct (snd s); reflexivity ]. }
    assert (ROWS : forall n s, snd (read_rows sample d n s) = true -> True) by trivial.
    assert (MONO : forall n s, snd s = true -> snd (read_rows sample d n s) = true).
    { induction n as [ | r IH ]; intros s E; cbn [read_rows]; [ exact E | ]. apply IH. rewrite ROW, E. reflexivity. }
    assert (BAD : forall n s, snd (read_rows sample d n s) = false -> forall y x, y < n -> x < d -> sample y x <> None).
    { induction n as [ | r IH ]; intros s E y x Hy Hx; [ lia | ]. cbn [read_rows] in E.
      destruct (Nat.eq_dec y r) as [ -> | ]; [ | apply (IH _ E y x); lia ].
      intros NN. rewrite MONO in E; [ discriminate | ]. rewrite ROW. apply orb_true_iff. right. apply existsb_exists.
      exists x. split; [ apply in_seq; lia | rewrite NN; reflexivity ]. }
    unfold read_code. specialize (BAD d (0%N, false)). destruct (read_rows sample d d (0%N, false)) as (c & b). cbn [snd] in BAD.
    destruct b; [ reflexivity | ]. exfalso. apply NOT. intros y x Hy Hx. apply BAD; [ reflexivity | exact Hy | exact Hx ].
Qed.

(** ** Counting bits *)
Lemma pop_step p : exists q, N.land (Npos p) (Npos p - 1) = q /\
  forall n, (Npos p < 2 ^ N.of_nat n)%N -> (q < 2 ^ N.of_nat n)%N /\ cnt n (bit (Npos p)) = S (cnt n (bit q)).
Proof.
  eexists. split; [ reflexivity | ]. intros n.
  assert (POW : forall m, (2 ^ N.of_nat (S m) = 2 * 2 ^ N.of_nat m)%N) by (intros m; rewrite Nat2N.inj_succ, N.pow_succ_r'; reflexivity).
  revert n. induction p as [ p IH | p IH | ]; intros n L.
  - replace (N.land (N.pos p~1) (N.pos p~1 - 1)) with (N.double (Npos p)).
    + split; [ cbn [N.double]; lia | ]. destruct n as [ | n ]; [ cbn in L; lia | ].
      rewrite !cnt_first, !bit_0. cbn [N.double]. change (N.odd (N.pos p~1)) with true. change (N.odd (N.pos p~0)) with false. cbn [Nat.add]. f_equal.
    + symmetry. replace (N.pos p~1 - 1)%N with (N.double (N.pos p)) by (cbn [N.double]; lia).
      cbn [N.land N.double Pos.land].
      assert (E := N.land_diag (Npos p)). cbn [N.land] in E. rewrite E. reflexivity.
  - destruct n as [ | n ]; [ cbn in L; lia | ]. specialize (IH n). rewrite POW in L.
    assert (E : N.land (N.pos p~0) (N.pos p~0 - 1) = N.double (N.land (N.pos p) (N.pos p - 1))).
    { apply bit_ext. intros [ | i ].
      - unfold bit. cbn [N.of_nat]. rewrite N.land_spec, !N.bit0_odd. change (N.odd (N.pos p~0)) with false. cbn [andb]. destruct (N.land (N.pos p) (N.pos p - 1)); reflexivity.
      - unfold bit. rewrite N.land_spec. replace (N.testbit (N.double (N.land (N.pos p) (N.pos p - 1))) (N.of_nat (S i)))
          with (N.testbit (N.land (N.pos p) (N.pos p - 1)) (N.of_nat i)).
        + rewrite N.land_spec. f_equal.
          * rewrite Nat2N.inj_succ. change (N.pos p~0) with (2 * N.pos p)%N. rewrite N.testbit_even_succ by lia. reflexivity.
          * rewrite Nat2N.inj_succ. replace (N.pos p~0 - 1)%N with (2 * (N.pos p - 1) + 1)%N by lia. rewrite N.testbit_odd_succ by lia. reflexivity.
        + rewrite Nat2N.inj_succ, N.double_spec, N.testbit_even_succ by lia. reflexivity. }
    rewrite E. destruct (IH ltac:(lia)) as (A & B). split; [ rewrite N.double_spec, POW; lia | ].
    rewrite !cnt_first, !bit_0. rewrite N.double_spec.
    replace (N.odd (2 * N.land (N.pos p) (N.pos p - 1))) with false by (rewrite N.odd_mul; reflexivity).
    change (N.odd (N.pos p~0)) with false. cbn [Nat.add].
    rewrite (cnt_ext n _ (bit (N.pos p))).
    + rewrite B. f_equal. apply cnt_ext. intros i _. rewrite bit_S. f_equal. rewrite N.div2_double || (rewrite <- N.double_spec, N.div2_double). reflexivity.
    + intros i _. rewrite bit_S. reflexivity.
  - cbn [N.land N.sub Pos.sub_mask Pos.land]. split; [ lia | ]. destruct n as [ | n ]; [ cbn in L; lia | ].
    rewrite !cnt_first, !bit_0. change (N.odd 1) with true. change (N.odd 0) with false. cbn [Nat.add]. f_equal.
    all: try (apply cnt_ext; intros i _; rewrite !bit_S; reflexivity).
Qed.
Lemma pop_loop_spec fuel : forall w c, (w < 2 ^ 64)%N -> cnt 64 (bit w) <= fuel -> pop_loop fuel w c = (c + Z.of_nat (cnt 64 (bit w)))%Z.
Proof.
  induction fuel as [ | f IH ]; intros w c L H; cbn [pop_loop]; [ lia | ].
  destruct (N.eqb_spec w 0) as [ -> | NZ ]; [ rewrite cnt_zero; [ lia | intros; apply bit_zero ] | ].
  destruct w as [ | p ]; [ contradiction | ]. destruct (pop_step p) as (q & -> & Q). destruct (Q 64 L) as (A & B).
  rewrite IH; [ rewrite B; lia | exact A | lia ].
Qed.
Lemma cnt_le n f : cnt n f <= n.
Proof. induction n as [ | n IH ]; [ cbn; lia | ]. cbn [cnt]. destruct (f n); lia. Qed.
Lemma pop_count_real_spec w : (w < 2 ^ 64)%N -> pop_count_real w = Z.of_nat (cnt 64 (bit w)).
Proof. intros L. unfold pop_count_real. rewrite pop_loop_spec; [ reflexivity | exact L | apply cnt_le ]. Qed.
Lemma table_loop_spec fuel : forall n w c, (w < 2 ^ N.of_nat n)%N -> n <= 12 * fuel -> n <= 64 -> table_loop fuel w c = (c + Z.of_nat (cnt n (bit w)))%Z.
Proof.
  induction fuel as [ | f IH ]; intros n w c L H H64; cbn [table_loop].
  - replace n with 0 by lia. cbn. lia.
  - destruct (N.eqb_spec w 0) as [ -> | NZ ]; [ rewrite cnt_zero; [ lia | intros; apply bit_zero ] | ].
    assert (LOW : forall i, bit (N.land w 4095) i = (i <? 12) && bit w i).
    { intros i. unfold bit. change 4095%N with (N.ones 12). rewrite N.land_ones.
      destruct (Nat.ltb_spec i 12); [ apply N.mod_pow2_bits_low; lia | apply N.mod_pow2_bits_high; lia ]. }
    assert (HIGH : forall i, bit (N.shiftr w 12) i = bit w (12 + i)).
    { intros i. unfold bit. rewrite N.shiftr_spec by lia. f_equal. lia. }
    unfold pop_table. rewrite pop_count_real_spec.
    2: { apply (low_of_bits 64). intros i Hi. rewrite LOW. destruct (Nat.ltb_spec i 12); [ lia | reflexivity ]. }
    assert (C12 : cnt 64 (bit (N.land w 4095)) = cnt 12 (bit w)).
    { change 64 with (12 + 52) at 1. rewrite cnt_app, (cnt_zero 52), Nat.add_0_r.
      - apply cnt_ext. intros i Hi. rewrite LOW. destruct (Nat.ltb_spec i 12); [ reflexivity | lia ].
      - intros i Hi. rewrite LOW. destruct (Nat.ltb_spec (12 + i) 12); [ lia | reflexivity ]. }
    rewrite C12, (IH (n - 12)).
    + destruct (Nat.le_gt_cases 12 n) as [ G | G ].
      * replace n with (12 + (n - 12)) at 2 by lia. rewrite cnt_app, (cnt_ext (n - 12) (bit (N.shiftr w 12)) (fun i => bit w (12 + i))) by (intros; apply HIGH). lia.
      * replace (n - 12) with 0 by lia. change (cnt 0 (bit (N.shiftr w 12))) with 0.
        assert (X : cnt (n + (12 - n)) (bit w) = cnt n (bit w)); [ | replace (n + (12 - n)) with 12 in X by lia; rewrite X; lia ].
        rewrite cnt_app, (cnt_zero (12 - n)); [ lia | ]. intros i Hi. apply (bit_high n); [ exact L | lia ].
    + apply low_of_bits. intros i Hi. rewrite HIGH. apply (bit_high n); [ exact L | lia ].
    + lia.
    + lia.
Qed.
Lemma xor_low a b : (a < 2 ^ 64)%N -> (b < 2 ^ 64)%N -> (N.lxor a b < 2 ^ 64)%N.
Proof.
  intros A B. apply (low_of_bits 64). intros i Hi. unfold bit. rewrite N.lxor_spec.
  fold (bit a i) (bit b i). rewrite (bit_high 64 a i A Hi), (bit_high 64 b i B Hi). reflexivity.
Qed.
Lemma hamming_spec a b : (a < 2 ^ 64)%N -> (b < 2 ^ 64)%N -> hamming_distance a b = Z.of_nat (differing a b).
Proof.
  intros A B. unfold hamming_distance, pop_count. rewrite (table_loop_spec 6 64); [ | apply (xor_low _ _ A B) | lia | lia ].
  rewrite differing_cnt. cbn [Z.add]. f_equal. apply cnt_ext. intros i _. apply N.lxor_spec.
Qed.

(** ** The search *)
Section Search.
Variable rs : list N.
Definition dist (cs : list N) (i k : nat) : Z := hamming_distance (nth k rs 0%N) (nth i cs 0%N).
(** What is best so far among the first [n] codes, counted from [o]. *)
Lemma try_rotations_spec c id : forall ks j b, (forall k, k < length ks -> nth k ks 0%N = nth (j + k) rs 0%N) ->
  let b' := try_rotations c id (Z.of_nat j) ks b in
  (b' = b /\ forall k, k < length ks -> (b_hamming b <= hamming_distance (nth (j + k) rs 0%N) c)%Z) \/
  (exists k, k < length ks /\ b' = Best id (hamming_distance (nth (j + k) rs 0%N) c) (Z.of_nat (j + k)) c /\
     (hamming_distance (nth (j + k) rs 0%N) c < b_hamming b)%Z /\
     (forall k', k' < length ks -> (hamming_distance (nth (j + k) rs 0%N) c <= hamming_distance (nth (j + k') rs 0%N) c)%Z) /\
     (forall k', k' < k -> (hamming_distance (nth (j + k) rs 0%N) c < hamming_distance (nth (j + k') rs 0%N) c)%Z)).
Proof using.
  induction ks as [ | r ks IH ]; intros j b E; cbv zeta; cbn [try_rotations length].
  - left. split; [ reflexivity | intros; lia ].
  - assert (R0 : r = nth j rs 0%N) by (specialize (E 0 ltac:(cbn; lia)); rewrite Nat.add_0_r in E; exact E).
    assert (E' : forall k, k < length ks -> nth k ks 0%N = nth (S j + k) rs 0%N).
    { intros k Hk. specialize (E (S k) ltac:(cbn; lia)). cbn [nth] in E. rewrite E. f_equal. lia. }
    replace (Z.of_nat j + 1)%Z with (Z.of_nat (S j)) by lia. specialize (IH (S j) (try_rotation c id (Z.of_nat j) r b) E'). cbv zeta in IH.
    unfold try_rotation in *. cbv zeta in *. rewrite R0 in *. set (h := hamming_distance (nth j rs 0%N) c) in *.
    assert (IDX : forall k, S j + k = j + S k) by (intros; lia).
    destruct (Z.ltb_spec h (b_hamming b)) as [ LT | GE ]; destruct IH as [ (EQ & M) | (k & Hk & EQ & LS & M & F) ].
    + right. exists 0. rewrite Nat.add_0_r. fold h. split; [ lia | ]. split; [ exact EQ | ]. split; [ exact LT | ]. cbn [b_hamming] in M. split.
      * intros [ | k' ] Hk'; [ rewrite Nat.add_0_r; fold h; lia | ]. rewrite <- IDX. apply M. lia.
      * intros; lia.
    + right. exists (S k). rewrite <- IDX. cbn [b_hamming] in LS. split; [ lia | ]. split; [ exact EQ | ]. split; [ lia | ]. split.
      * intros [ | k' ] Hk'; [ rewrite Nat.add_0_r; fold h; lia | ]. rewrite <- IDX. apply M. lia.
      * intros [ | k' ] Hk'; [ rewrite Nat.add_0_r; fold h; lia | ]. rewrite <- IDX. apply F. lia.
    + left. split; [ exact EQ | ]. intros [ | k' ] Hk'; [ rewrite Nat.add_0_r; fold h; lia | ]. rewrite <- IDX. apply M. lia.
    + right. exists (S k). rewrite <- IDX. split; [ lia | ]. split; [ exact EQ | ]. split; [ exact LS | ]. split.
      * intros [ | k' ] Hk'; [ rewrite Nat.add_0_r; fold h; lia | ]. rewrite <- IDX. apply M. lia.
      * intros [ | k' ] Hk'; [ rewrite Nat.add_0_r; fold h; lia | ]. rewrite <- IDX. apply F. lia.
Qed.
Lemma try_codes_spec : forall cs o b,
  let b' := try_codes cs (Z.of_nat o) rs b in
  (b' = b /\ forall i k, i < length cs -> k < length rs -> (b_hamming b <= dist cs i k)%Z) \/
  (exists i k, i < length cs /\ k < length rs /\ b' = Best (Z.of_nat (o + i)) (dist cs i k) (Z.of_nat k) (nth i cs 0%N) /\
     (dist cs i k < b_hamming b)%Z /\
     (forall i' k', i' < length cs -> k' < length rs -> (dist cs i k <= dist cs i' k')%Z) /\
     (forall i' k', i' < i -> k' < length rs -> (dist cs i k < dist cs i' k')%Z) /\
     (forall k', k' < k -> (dist cs i k < dist cs i k')%Z)).
Proof using.
  induction cs as [ | c cs IH ]; intros o b; cbv zeta; cbn [try_codes length].
  - left. split; [ reflexivity | intros; lia ].
  - replace (Z.of_nat o + 1)%Z with (Z.of_nat (S o)) by lia.
    pose proof (try_rotations_spec c (Z.of_nat o) rs 0 b (fun k _ => eq_refl)) as T. cbv zeta in T. cbn [Nat.add] in T.
    change (Z.of_nat 0) with 0%Z in T. set (b1 := try_rotations c (Z.of_nat o) 0 rs b) in *.
    specialize (IH (S o) b1). cbv zeta in IH.
    assert (D0 : forall k, dist (c :: cs) 0 k = hamming_distance (nth k rs 0%N) c) by reflexivity.
    assert (DS : forall i k, dist (c :: cs) (S i) k = dist cs i k) by reflexivity.
    assert (IDX : forall i, S o + i = o + S i) by (intros; lia).
    destruct T as [ (EB & M1) | (k1 & K1 & EB & LS1 & M1 & F1) ]; destruct IH as [ (EQ & M) | (i & k & Hi & Hk & EQ & LS & M & F & G) ].
    + left. split; [ congruence | ]. intros [ | i' ] k' Hi' Hk'; [ rewrite D0; apply M1; exact Hk' | rewrite DS, <- EB; apply M; [ lia | exact Hk' ] ].
    + right. exists (S i), k. rewrite DS, <- IDX. cbn [nth]. rewrite EB in LS. split; [ lia | ]. split; [ exact Hk | ]. split; [ exact EQ | ]. split; [ exact LS | ].
      split; [ | split ].
      * intros [ | i' ] k' Hi' Hk'; [ rewrite D0; specialize (M1 k' Hk'); lia | rewrite DS; apply M; [ lia | exact Hk' ] ].
      * intros [ | i' ] k' Hi' Hk'; [ rewrite D0; specialize (M1 k' Hk'); lia | rewrite DS; apply F; [ lia | exact Hk' ] ].
      * intros k' Hk'. rewrite DS. apply G. exact Hk'.
    + right. exists 0, k1. rewrite D0, Nat.add_0_r. cbn [nth]. rewrite EB in M. cbn [b_hamming] in M.
      split; [ lia | ]. split; [ exact K1 | ]. split; [ congruence | ]. split; [ exact LS1 | ]. split; [ | split ].
      * intros [ | i' ] k' Hi' Hk'; [ rewrite D0; apply M1; exact Hk' | rewrite DS; apply M; [ lia | exact Hk' ] ].
      * intros; lia.
      * intros k' Hk'. rewrite D0. apply F1. exact Hk'.
    + right. exists (S i), k. rewrite DS, <- IDX. cbn [nth]. rewrite EB in LS. cbn [b_hamming] in LS. split; [ lia | ]. split; [ exact Hk | ]. split; [ exact EQ | ]. split; [ lia | ].
      split; [ | split ].
      * intros [ | i' ] k' Hi' Hk'; [ rewrite D0; specialize (M1 k' Hk'); lia | rewrite DS; apply M; [ lia | exact Hk' ] ].
      * intros [ | i' ] k' Hi' Hk'; [ rewrite D0; specialize (M1 k' Hk'); lia | rewrite DS; apply F; [ lia | exact Hk' ] ].
      * intros k' Hk'. rewrite DS. apply G. exact Hk'.
Qed.
End Search.
