(** * C75: tag codes are read and corrected *)
From Coq Require Import NArith ZArith List Bool Arith Lia ZifyBool.
From Verif Require Import Base TagModel TagTables TagSpec TagProofs.
Import ListNotations.
Local Open Scope nat_scope.

(** The Hamming distance is the number of differing bits. *)
Theorem C75_distance : forall a b, (a < 2 ^ 64)%N -> (b < 2 ^ 64)%N -> hamming_distance a b = Z.of_nat (differing a b).
Proof. exact hamming_spec. Qed.
Print Assumptions C75_distance.

(** rotate90 turns the picture by a quarter; four times give the picture back;
    pictures of more than eight rows shift by too much. *)
Theorem C75_rotate : forall w d,
  (d <= 8 -> exists r, rotate90 w d = Ok r /\ fits d r /\ forall y x, y < d -> x < d -> picture d r y x = turn d (picture d w) y x) /\
  (d <= 8 -> fits d w -> (do a <- rotate90 w d; do b <- rotate90 a d; do c <- rotate90 b d; rotate90 c d) = Ok w) /\
  (8 < d -> rotate90 w d = UB).
Proof.
  intros w d. split; [ | split ].
  - intros D. exists (turn_word d w). split; [ apply rotate90_spec; exact D | ]. split; [ apply turn_word_fits | ].
    intros y x Hy Hx. apply picture_turn; assumption.
  - intros D F. do 4 (rewrite rotate90_spec by exact D; cbn [obind]). f_equal. exact (turns_4 d w F).
  - apply rotate90_big.
Qed.
Print Assumptions C75_rotate.

(** The cells are read into the word whose picture they are; a cell outside the
    image spoils the reading. *)
Theorem C75_read : forall sample d, d <= 8 ->
  (forall w, read_code sample d = Some w <-> (fits d w /\ forall y x, y < d -> x < d -> sample y x = Some (picture d w y x))) /\
  (read_code sample d = None <-> exists y x, y < d /\ x < d /\ sample y x = None).
Proof.
  intros sample d D. destruct (read_code_spec sample d D) as (S1 & S2).
  assert (DEC : (forall y x, y < d -> x < d -> sample y x <> None) \/ exists y x, y < d /\ x < d /\ sample y x = None).
  { assert (H : forall n, n <= d -> (forall y x, y < n -> x < d -> sample y x <> None) \/ exists y x, y < d /\ x < d /\ sample y x = None).
    { induction n as [ | n IH ]; intros L; [ left; intros; lia | ]. destruct (IH ltac:(lia)) as [ A | A ]; [ | right; exact A ].
      assert (H : forall m, m <= d -> (forall x, x < m -> sample n x <> None) \/ exists x, x < d /\ sample n x = None).
      { induction m as [ | m IHm ]; intros Lm; [ left; intros; lia | ]. destruct (IHm ltac:(lia)) as [ B | B ]; [ | right; exact B ].
        destruct (sample n m) eqn:E; [ | right; exists m; split; [ lia | exact E ] ].
        left. intros x Hx. destruct (Nat.eq_dec x m) as [ -> | ]; [ congruence | apply B; lia ]. }
      destruct (H d (le_n _)) as [ B | (x & Hx & E) ]; [ | right; exists n, x; split; [ lia | split; assumption ] ].
      left. intros y x Hy Hx. destruct (Nat.eq_dec y n) as [ -> | ]; [ apply B; exact Hx | apply A; [ lia | exact Hx ] ]. }
    exact (H d (le_n _)). }
  destruct DEC as [ ALL | (y0 & x0 & Hy0 & Hx0 & E0) ].
  - specialize (S1 ALL). set (g := fun y x => match sample y x with Some b => b | None => false end) in *.
    assert (GS : forall y x, y < d -> x < d -> sample y x = Some (g y x)).
    { intros y x Hy Hx. specialize (ALL y x Hy Hx). unfold g. destruct (sample y x); [ reflexivity | contradiction ]. }
    rewrite S1. split.
    + intros w. split.
      * intros E. injection E as <-. split; [ apply word_of_fits | ]. intros y x Hy Hx. rewrite bit_word_of by assumption. apply GS; assumption.
      * intros (F & P). f_equal. apply (picture_ext d); [ apply word_of_fits | exact F | ]. intros y x Hy Hx.
        rewrite bit_word_of by assumption. specialize (P y x Hy Hx). rewrite GS in P by assumption. congruence.
    + split; [ discriminate | ]. intros (y & x & Hy & Hx & E). rewrite GS in E by assumption. discriminate.
  - rewrite S2 by (intros H; exact (H y0 x0 Hy0 Hx0 E0)). split.
    + intros w. split; [ discriminate | ]. intros (F & P). specialize (P y0 x0 Hy0 Hx0). congruence.
    + split; [ | reflexivity ]. intros _. exists y0, x0. split; [ exact Hy0 | split; assumption ].
Qed.
Print Assumptions C75_read.

(** decode reports the nearest code over the four orientations, the first one
    if several are equally near. *)
Theorem C75_nearest : forall f w, let d := Z.to_nat (fdim f) in
  d <= 8 -> (w < 2 ^ 64)%N -> (forall c, In c (fcodes f) -> (c < 2 ^ 64)%N) ->
  (fcodes f = [] -> decode f w = Ok (Decoded (-1) int_max 0 (int_max <=? frecover f)%Z w 0)) /\
  (fcodes f <> [] -> exists i k, i < length (fcodes f) /\ k < 4 /\
     let at_ := fun j m => differing (turns d m w) (code (fcodes f) j) in
     decode f w = Ok (Decoded (Z.of_nat i) (Z.of_nat (at_ i k)) (Z.of_nat k) (Z.of_nat (at_ i k) <=? frecover f)%Z w (code (fcodes f) i)) /\
     (forall j m, j < length (fcodes f) -> m < 4 -> at_ i k <= at_ j m) /\
     (forall j m, j < i -> m < 4 -> at_ i k < at_ j m) /\ (forall m, m < k -> at_ i k < at_ i m)).
Proof.
  intros f w d D W C. unfold decode. fold d. do 3 (rewrite rotate90_spec by exact D; cbn [obind]). cbv zeta.
  split.
  - intros ->. reflexivity.
  - intros NE. set (rs := [w; turn_word d w; turn_word d (turn_word d w); turn_word d (turn_word d (turn_word d w))]).
    assert (RS : forall k, k < 4 -> nth k rs 0%N = turns d k w) by (intros [ | [ | [ | [ | k ] ] ] ] Hk; try lia; reflexivity).
    assert (W64 : forall k, (turns d k w < 2 ^ 64)%N).
    { intros [ | k ]; [ exact W | ]. cbn [turns]. apply N.lt_le_trans with (1 := turn_word_fits d _). apply N.pow_le_mono_r; [ lia | nia ]. }
    assert (DI : forall j m, j < length (fcodes f) -> m < 4 -> dist rs (fcodes f) j m = Z.of_nat (differing (turns d m w) (code (fcodes f) j))).
    { intros j m Hj Hm. unfold dist. rewrite RS by exact Hm. apply hamming_spec; [ apply W64 | apply C, nth_In; exact Hj ]. }
    pose proof (try_codes_spec rs (fcodes f) 0 (Best (-1) int_max 0 0)) as T. cbv zeta in T. cbn [Nat.add b_hamming] in T.
    change (Z.of_nat 0) with 0%Z in T. change (length rs) with 4 in T.
    assert (SM : forall j m, differing (turns d m w) (code (fcodes f) j) <= 64) by (intros; rewrite differing_cnt; apply cnt_le).
    destruct T as [ (_ & M) | (i & k & Hi & Hk & EQ & LS & M & F & G) ].
    + exfalso. assert (L : 0 < length (fcodes f)) by (destruct (fcodes f); [ contradiction | cbn; lia ]).
      specialize (M 0 0 L ltac:(lia)). rewrite DI in M by lia. specialize (SM 0 0). unfold int_max in M. lia.
    + exists i, k. split; [ exact Hi | ]. split; [ exact Hk | ]. rewrite EQ. cbn [b_id b_hamming b_rotation b_code]. rewrite DI by assumption.
      split; [ reflexivity | ]. split; [ | split ].
      * intros j m Hj Hm. specialize (M j m Hj Hm). rewrite !DI in M by assumption. lia.
      * intros j m Hj Hm. specialize (F j m Hj Hm). rewrite !DI in F by (first [ assumption | lia ]). lia.
      * intros m Hm. specialize (G m Hm). rewrite !DI in G by (first [ assumption | lia ]). lia.
Qed.
Print Assumptions C75_nearest.

Lemma fits_64 d w : d <= 8 -> fits d w -> (w < 2 ^ 64)%N.
Proof. intros D F. apply N.lt_le_trans with (1 := F). apply N.pow_le_mono_r; [ lia | nia ]. Qed.
(** Two codes near two orientations of one word. *)
Lemma near_both d w a b k m : d <= 8 -> fits d w -> fits d a -> k < 4 -> m < 4 ->
  differing (turns d (m + 4 - k) a) b <= differing (turns d k w) a + differing (turns d m w) b.
Proof.
  intros D FW FA K M. set (n := m + 4 - k).
  assert (E : turns d n (turns d k w) = turns d m w).
  { rewrite <- turns_plus. replace (n + k) with (m + 4) by lia. rewrite turns_plus, turns_4 by exact FW. reflexivity. }
  pose proof (differing_triangle (turns d n a) (turns d n (turns d k w)) b) as T. rewrite E in T at 2.
  rewrite differing_turns in T by (first [ assumption | apply turns_fits; assumption ]). rewrite (differing_comm a) in T. exact T.
Qed.

(** A code of a family with minimum distance D, seen in any orientation with
    fewer than D/2 wrong cells, is recognised; if no code resembles a turned
    version of itself, so is the orientation and the number of wrong cells. *)
Theorem C75_corrects : forall f w i k D, let d := Z.to_nat (fdim f) in
  d <= 8 -> fits d w -> (forall c, In c (fcodes f) -> fits d c) -> separated d (fcodes f) D ->
  i < length (fcodes f) -> k < 4 -> 2 * differing (turns d k w) (code (fcodes f) i) < D ->
  exists det, decode f w = Ok det /\ d_id det = Z.of_nat i /\ d_code det = code (fcodes f) i /\
    (d_hamming det <= Z.of_nat (differing (turns d k w) (code (fcodes f) i)))%Z /\
    (Z.of_nat (differing (turns d k w) (code (fcodes f) i)) <= frecover f -> d_good det = true)%Z /\
    (oriented d (fcodes f) D -> d_rotation det = Z.of_nat k /\ d_hamming det = Z.of_nat (differing (turns d k w) (code (fcodes f) i))).
Proof.
  intros f w i k D d D8 FW FC SEP Hi Hk E.
  destruct (C75_nearest f w D8 (fits_64 _ _ D8 FW) (fun c H => fits_64 _ _ D8 (FC c H))) as (_ & NE). fold d in NE.
  destruct NE as (i' & k' & Hi' & Hk' & DEC & MIN & _); [ destruct (fcodes f); [ cbn in Hi; lia | discriminate ] | ]. cbv zeta in DEC, MIN.
  assert (LE := MIN i k Hi Hk).
  assert (FI : fits d (code (fcodes f) i)) by (apply FC, nth_In; exact Hi).
  pose proof (near_both d w (code (fcodes f) i) (code (fcodes f) i') k k' D8 FW FI Hk Hk') as NB.
  assert (II : i' = i).
  { destruct (Nat.eq_dec i i') as [ | NQ ]; [ congruence | ]. specialize (SEP i i' (k' + 4 - k) Hi Hi' NQ). lia. }
  subst i'. eexists. split; [ exact DEC | ]. cbn [d_id d_code d_hamming d_good d_rotation].
  split; [ reflexivity | ]. split; [ reflexivity | ]. split; [ lia | ]. split; [ intros; lia | ].
  intros OR. destruct (Nat.eq_dec k' k) as [ -> | NK ]; [ split; reflexivity | ]. exfalso.
  rewrite (turns_mod d (k' + 4 - k)) in NB by exact FI.
  assert (R : 1 <= (k' + 4 - k) mod 4 <= 3).
  { pose proof (Nat.mod_upper_bound (k' + 4 - k) 4 ltac:(lia)). pose proof (Nat.div_mod (k' + 4 - k) 4 ltac:(lia)). lia. }
  specialize (OR i _ Hi R). lia.
Qed.
Print Assumptions C75_corrects.

(** A good detection names the only code within the recovery distance. *)

Lemma nearest_id f w det : let d := Z.to_nat (fdim f) in d <= 8 -> (w < 2 ^ 64)%N -> (forall c, In c (fcodes f) -> (c < 2 ^ 64)%N) ->
  fcodes f <> [] -> decode f w = Ok det ->
  exists i k, i < length (fcodes f) /\ k < 4 /\ d_id det = Z.of_nat i /\
    d_good det = (Z.of_nat (differing (turns d k w) (code (fcodes f) i)) <=? frecover f)%Z.
Proof.
  intros d D8 W C NE DEC. destruct (proj2 (C75_nearest f w D8 W C) NE) as (i & k & Hi & Hk & DEC' & _).
  cbv zeta in DEC'. fold d in DEC'. exists i, k. split; [ exact Hi | ]. split; [ exact Hk | ].
  rewrite DEC in DEC'. revert DEC'. generalize (differing (turns d k w) (code (fcodes f) i)). intros h E.
  assert (DET : det = Decoded (Z.of_nat i) (Z.of_nat h) (Z.of_nat k) (Z.of_nat h <=? frecover f)%Z w (code (fcodes f) i)) by congruence.
  rewrite DET. split; reflexivity.
Qed.
Theorem C75_sound : forall f w D det, let d := Z.to_nat (fdim f) in
  d <= 8 -> fits d w -> (forall c, In c (fcodes f) -> fits d c) -> separated d (fcodes f) D -> fcodes f <> [] ->
  decode f w = Ok det -> d_good det = true -> (2 * frecover f < Z.of_nat D)%Z ->
  exists i k, i < length (fcodes f) /\ k < 4 /\ d_id det = Z.of_nat i /\ (Z.of_nat (differing (turns d k w) (code (fcodes f) i)) <= frecover f)%Z /\
    forall j m, j < length (fcodes f) -> m < 4 -> (Z.of_nat (differing (turns d m w) (code (fcodes f) j)) <= frecover f)%Z -> j = i.
Proof.
  intros f w D det d D8 FW FC SEP NE DEC GOOD REC.
  destruct (nearest_id f w det D8 (fits_64 _ _ D8 FW) (fun c H => fits_64 _ _ D8 (FC c H)) NE DEC) as (i & k & Hi & Hk & EI & EG).
  fold d in EG. rewrite GOOD in EG. exists i, k. split; [ exact Hi | ]. split; [ exact Hk | ]. split; [ exact EI | ]. split; [ lia | ].
  intros j m Hj Hm NEAR. destruct (Nat.eq_dec i j) as [ | NQ ]; [ congruence | exfalso ].
  assert (FI : fits d (code (fcodes f) i)) by (apply FC, nth_In; exact Hi).
  pose proof (near_both d w (code (fcodes f) i) (code (fcodes f) j) k m D8 FW FI Hk Hm) as NB.
  specialize (SEP i j (m + 4 - k) Hi Hj NQ). clear - SEP NB NEAR EG REC. lia.
Qed.
Print Assumptions C75_sound.

(** ** The tables *)
Fixpoint at_least (D : nat) (p : positive) : bool :=
  match p with
  | xH => (D <=? 1)
  | xO q => at_least D q
  | xI q => match D with O => true | S E => at_least E q end
  end.
Definition apart (D : nat) (a b : N) : bool := match N.lxor a b with N0 => D =? 0 | Npos p => at_least D p end.
Lemma at_least_spec p : forall D n, at_least D p = true -> (Npos p < 2 ^ N.of_nat n)%N -> D <= cnt n (bit (Npos p)).
Proof.
  assert (POW : forall m, (2 ^ N.of_nat (S m) = 2 * 2 ^ N.of_nat m)%N) by (intros m; rewrite Nat2N.inj_succ, N.pow_succ_r'; reflexivity).
  induction p as [ p IH | p IH | ]; intros D n H L; (destruct n as [ | n ]; [ cbn in L; lia | ]); rewrite POW in L; rewrite cnt_first, bit_0; cbn [at_least] in H.
  - change (N.odd (N.pos p~1)) with true. destruct D as [ | E ]; [ lia | ]. specialize (IH E n H ltac:(lia)).
    rewrite (cnt_ext n _ (bit (N.pos p))) by (intros; rewrite bit_S; reflexivity). cbn [Nat.add]. lia.
  - specialize (IH D n H ltac:(lia)). rewrite (cnt_ext n _ (bit (N.pos p))) by (intros; rewrite bit_S; reflexivity). lia.
  - change (N.odd 1) with true. cbv iota. apply Nat.leb_le in H. lia.
Qed.
Lemma apart_spec D a b : apart D a b = true -> (a < 2 ^ 64)%N -> (b < 2 ^ 64)%N -> D <= differing a b.
Proof.
  intros H A B. rewrite differing_cnt. rewrite (cnt_ext 64 _ (bit (N.lxor a b))) by (intros; symmetry; apply N.lxor_spec).
  pose proof (xor_low a b A B) as X. unfold apart in H. destruct (N.lxor a b) as [ | p ]; [ lia | ]. apply at_least_spec; [ exact H | exact X ].
Qed.
Fixpoint pairs_apart (d D : nat) (l : list N) : bool :=
  match l with
  | [] => true
  | c :: cs =>
      let r1 := turn_word d c in let r2 := turn_word d r1 in let r3 := turn_word d r2 in
      forallb (fun e => apart D c e && apart D r1 e && apart D r2 e && apart D r3 e) cs && pairs_apart d D cs
  end.
Definition turns_apart (d D : nat) (l : list N) : bool :=
  forallb (fun c => let r1 := turn_word d c in let r2 := turn_word d r1 in apart D r1 c && apart D r2 c && apart D (turn_word d r2) c) l.
Definition all_fit (d : nat) (l : list N) : bool := forallb (fun c => (c <? 2 ^ N.of_nat (d * d))%N) l.
Lemma all_fit_spec d l : all_fit d l = true -> forall c, In c l -> fits d c.
Proof. intros H c Hc. unfold all_fit in H. rewrite forallb_forall in H. specialize (H c Hc). unfold fits. lia. Qed.
Lemma separated_check d D l : d <= 8 -> all_fit d l = true -> pairs_apart d D l = true -> separated d l D.
Proof.
  intros D8 AF PA. pose proof (all_fit_spec d l AF) as FC.
  assert (F64 : forall c k, fits d c -> (turns d k c < 2 ^ 64)%N) by (intros; apply (fits_64 d); [ exact D8 | apply turns_fits; assumption ]).
  assert (UP : forall l, (forall c, In c l -> fits d c) -> pairs_apart d D l = true ->
    forall i j k, i < j -> j < length l -> k < 4 -> D <= differing (turns d k (code l i)) (code l j)).
  { clear l AF PA FC. induction l as [ | c cs IH ]; intros FC PA i j k L Hj Hk; [ cbn in Hj; lia | ]. cbn [pairs_apart] in PA.
    apply andb_true_iff in PA. destruct PA as (P1 & P2). cbn [length] in Hj. destruct j as [ | j ]; [ lia | ]. destruct i as [ | i ].
    - unfold code. cbn [nth]. rewrite forallb_forall in P1. specialize (P1 (nth j cs 0%N) (nth_In cs (n := j) 0%N (proj2 (Nat.succ_lt_mono _ _) Hj))).
      apply andb_true_iff in P1. destruct P1 as (P1 & A3). apply andb_true_iff in P1. destruct P1 as (P1 & A2). apply andb_true_iff in P1. destruct P1 as (A0 & A1).
      assert (FE : (nth j cs 0 < 2 ^ 64)%N) by (apply (fits_64 d); [ exact D8 | apply FC; right; apply nth_In; lia ]).
      assert (FCc : fits d c) by (apply FC; left; reflexivity).
      apply apart_spec; [ | apply F64; exact FCc | exact FE ].
      destruct k as [ | [ | [ | [ | k ] ] ] ]; try lia; assumption.
    - apply (IH (fun x H => FC x (or_intror H)) P2 i j k); lia. }
  intros i j k Hi Hj NQ. assert (FI : fits d (code l i)) by (apply FC, nth_In; exact Hi). assert (FJ : fits d (code l j)) by (apply FC, nth_In; exact Hj).
  rewrite (turns_mod d k) by exact FI. pose proof (Nat.mod_upper_bound k 4 ltac:(lia)) as KM. set (m := k mod 4) in *.
  destruct (Nat.lt_ge_cases i j) as [ L | G ]; [ apply UP; assumption | ].
  rewrite <- (differing_turns d (4 - m)) by (first [ assumption | apply turns_fits; assumption ]).
  rewrite <- turns_plus. replace (4 - m + m) with 4 by lia. rewrite turns_4 by exact FI. rewrite differing_comm.
  rewrite (turns_mod d (4 - m)) by exact FJ. apply UP; [ exact FC | exact PA | lia | exact Hi | apply Nat.mod_upper_bound; lia ].
Qed.
Lemma oriented_check d D l : d <= 8 -> all_fit d l = true -> turns_apart d D l = true -> oriented d l D.
Proof.
  intros D8 AF TA i k Hi Hk. pose proof (all_fit_spec d l AF) as FC. unfold turns_apart in TA. rewrite forallb_forall in TA.
  specialize (TA (code l i) (nth_In l 0%N Hi)). cbv zeta in TA. apply andb_true_iff in TA. destruct TA as (TA & A3). apply andb_true_iff in TA. destruct TA as (A1 & A2).
  assert (FI : fits d (code l i)) by (apply FC, nth_In; exact Hi).
  apply apart_spec; [ | apply (fits_64 d); [ exact D8 | apply turns_fits; exact FI ] | apply (fits_64 d); [ exact D8 | exact FI ] ].
  destruct k as [ | [ | [ | [ | k ] ] ] ]; try lia; assumption.
Qed.

(** Every family keeps the minimum distance it declares (Tag36h9, with its 5329
    codes, is not checked); the tables that are not named "other" also keep it
    between a code and its own turned versions. *)
Definition checked : list family := [tagCodes16h5; tagCodes16h5_other; tagCodes25h7; tagCodes25h9; tagCodes36h11; tagCodes36h11_other].
Definition checked_oriented : list family := [tagCodes16h5; tagCodes25h7; tagCodes25h9; tagCodes36h11].
Definition table_ok (f : family) : bool :=
  let d := Z.to_nat (fdim f) in (d <=? 8) && (fdim f * fdim f =? fbits f)%Z && all_fit d (fcodes f) && pairs_apart d (Z.to_nat (fmin f)) (fcodes f).
Lemma tables_ok : forallb table_ok checked = true.
Proof. vm_cast_no_check (eq_refl true). Qed.
Lemma tables_oriented : forallb (fun f => turns_apart (Z.to_nat (fdim f)) (Z.to_nat (fmin f)) (fcodes f)) checked_oriented = true.
Proof. vm_cast_no_check (eq_refl true). Qed.
Theorem C75_families : forall f, In f checked -> let d := Z.to_nat (fdim f) in
  d <= 8 /\ (fdim f * fdim f = fbits f)%Z /\ (forall c, In c (fcodes f) -> fits d c) /\ separated d (fcodes f) (Z.to_nat (fmin f)) /\
  (2 * frecover f < fmin f)%Z /\ (In f checked_oriented -> oriented d (fcodes f) (Z.to_nat (fmin f))).
Proof.
  intros f Hf. cbv zeta. pose proof (proj1 (forallb_forall _ _) tables_ok f Hf) as OK. unfold table_ok in OK. cbv zeta in OK.
  apply andb_true_iff in OK. destruct OK as (OK & A4). apply andb_true_iff in OK. destruct OK as (OK & A3). apply andb_true_iff in OK. destruct OK as (A1 & A2).
  apply Nat.leb_le in A1. apply Z.eqb_eq in A2.
  split; [ exact A1 | ]. split; [ exact A2 | ]. split; [ apply all_fit_spec; exact A3 | ]. split; [ apply separated_check; assumption | ]. split.
  - clear - Hf. repeat (destruct Hf as [ <- | Hf ]; [ reflexivity | ]). destruct Hf.
  - intros Ho. apply oriented_check; [ exact A1 | exact A3 | ]. exact (proj1 (forallb_forall _ _) tables_oriented f Ho).
Qed.
Print Assumptions C75_families.

(** Two "other" tables contain a code that looks the same after half a turn:
    a perfect view upside down is reported as upright. *)
Theorem C75_orientation_refuted : exists w det, let f := tagCodes36h11_other in let d := Z.to_nat (fdim f) in
  turns d 2 w = code (fcodes f) 543 /\ decode f w = Ok det /\ d_id det = 543%Z /\ d_hamming det = 0%Z /\ d_rotation det = 0%Z /\ d_good det = true.
Proof.
  exists (code t36h11_other 543). eexists. cbv zeta. split; [ vm_compute; reflexivity | ]. split; [ vm_compute; reflexivity | ].
  split; [ reflexivity | ]. split; [ reflexivity | ]. split; reflexivity.
Qed.
Print Assumptions C75_orientation_refuted.

(** Tag 7 of the standard family, upside down with three wrong cells. *)
Example C75_ex : let f := set_recovery_bits 4 tagCodes36h11 in let w := N.lxor (turns 6 2 (code t36h11 7)) 1048609 in
  fits 6 w /\ 2 * differing (turns 6 2 w) (code (fcodes f) 7) < 11 /\ separated 6 (fcodes f) 11 /\ oriented 6 (fcodes f) 11 /\
  exists det, decode f w = Ok det /\ d_id det = 7%Z /\ d_rotation det = 2%Z /\ d_hamming det = 3%Z /\ d_good det = true.
Proof.
  cbv zeta. split; [ reflexivity | ]. split; [ vm_compute; lia | ].
  destruct (C75_families tagCodes36h11) as (_ & _ & _ & S & _ & O); [ unfold checked; cbn; tauto | ].
  split; [ exact S | ]. split; [ apply O; unfold checked_oriented; cbn; tauto | ].
  eexists. split; [ vm_compute; reflexivity | ]. split; [ reflexivity | ]. split; [ reflexivity | ]. split; reflexivity.
Qed.
