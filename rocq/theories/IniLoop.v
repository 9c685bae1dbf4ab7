(** * The loops over images and rows, and the median *)
From Coq Require Import Reals Lra Psatz List Arith Lia ZArith Bool Permutation Sorted.
From Verif Require Import Base DistModel IniModel IniSpec IniProofs.
Import ListNotations.
Local Close Scope Z_scope.
Local Open Scope R_scope.

(** ** Loops *)
Lemma gather_app {A B} (f : A -> outcome (list B)) l m :
  gather f (l ++ m) = (do x <- gather f l; do y <- gather f m; Ok (x ++ y)).
Proof.
  induction l as [ | a l IH]; cbn [gather app obind].
  - destruct (gather f m); reflexivity.
  - rewrite IH. destruct (f a); cbn [obind]; [ | reflexivity .. ].
    destruct (gather f l); cbn [obind]; [ | reflexivity .. ].
    destruct (gather f m); cbn [obind]; [ rewrite app_assoc | .. ]; reflexivity.
Qed.
Lemma gather_map {A A' B} (f : A -> outcome (list B)) (g : A' -> A) l : gather f (map g l) = gather (fun x => f (g x)) l.
Proof. induction l as [ | a l IH]; cbn [gather map]; [ reflexivity | rewrite IH; reflexivity ]. Qed.
Lemma gather_ext {A B} (f g : A -> outcome (list B)) l : (forall x, f x = g x) -> gather f l = gather g l.
Proof. intros H. induction l as [ | a l IH]; cbn [gather]; [ reflexivity | rewrite H, IH; reflexivity ]. Qed.
Lemma gather_nested {B} (f : nat -> nat -> outcome (list B)) cols js :
  gather (fun j => gather (f j) (seq (j + 1) (cols - (j + 1)))) js
  = gather (fun jk => f (fst jk) (snd jk)) (flat_map (fun j => map (pair j) (seq (S j) (cols - S j))) js).
Proof.
  induction js as [ | j js IH]; cbn [gather flat_map]; [ reflexivity | ].
  rewrite gather_app, <- IH, gather_map. cbn [fst snd]. rewrite (Nat.add_1_r j). reflexivity.
Qed.
Lemma row_pairs_in rows cols j k : In (j, k) (row_pairs rows cols) <-> (j < rows /\ j < k < cols)%nat.
Proof.
  unfold row_pairs. rewrite in_flat_map. split.
  - intros (x & Hx & Hp). apply in_seq in Hx. apply in_map_iff in Hp as (y & E & Hy). apply in_seq in Hy.
    assert (x = j) by congruence. assert (y = k) by congruence. subst. lia.
  - intros H. exists j. split; [ apply in_seq; lia | ]. apply in_map. apply in_seq. lia.
Qed.
(** Either everything is collected or memory is read out of bounds. *)
Definition tame {A} (o : outcome A) : Prop := match o with Ok _ | UB => True | _ => False end.
Lemma gather_tame {A B} (f : A -> outcome (list B)) l : (forall x, In x l -> tame (f x)) -> tame (gather f l).
Proof.
  induction l as [ | a l IH]; intros H; cbn [gather]; [ exact I | ].
  pose proof (H a (or_introl eq_refl)) as Ha. destruct (f a); cbn [obind] in *; try contradiction; [ | exact I ].
  assert (T : tame (gather f l)) by (apply IH; intros x Hx; apply H; right; exact Hx).
  destruct (gather f l); cbn [obind] in *; try contradiction; exact I.
Qed.
Lemma gather_ub {A B} (f : A -> outcome (list B)) l x : (forall x, In x l -> tame (f x)) -> In x l -> f x = UB -> gather f l = UB.
Proof.
  induction l as [ | a l IH]; intros H Hx E; [ destruct Hx | ]. cbn [gather].
  pose proof (H a (or_introl eq_refl)) as Ha.
  destruct Hx as [-> | Hx]; [ rewrite E; reflexivity | ].
  destruct (f a); cbn [obind] in *; try contradiction; [ | reflexivity ].
  rewrite IH; [ reflexivity | intros y Hy; apply H; right; exact Hy | exact Hx | exact E ].
Qed.

(** ** Rows *)
Lemma complete_whole v rows cols : complete v rows cols = true <-> whole v rows cols.
Proof.
  unfold complete, whole. rewrite forallb_forall. split.
  - intros H i Hi. assert (C : (cols <> 0)%nat) by (intros ->; lia).
    assert (Hr : (i / cols < rows)%nat) by (apply Nat.div_lt_upper_bound; [ exact C | lia ]).
    specialize (H (i / cols)%nat). rewrite in_seq in H. specialize (H ltac:(lia)). rewrite forallb_forall in H.
    specialize (H (i mod cols)%nat). rewrite in_seq in H.
    assert (Hc : (i mod cols < cols)%nat) by (apply Nat.mod_upper_bound, C).
    specialize (H ltac:(lia)). unfold grid_corner in H. rewrite <- (Nat.div_mod i cols C) in H.
    destruct (corner v i) as [p | ]; [ exists p; reflexivity | discriminate ].
  - intros H r Hr. apply in_seq in Hr. apply forallb_forall. intros c Hc. apply in_seq in Hc.
    unfold grid_corner. destruct (H (cols * r + c)%nat) as (p & ->); [ nia | reflexivity ].
Qed.
Lemma flat_seen {A} (f : A -> option v2) l : (forall x, In x l -> exists p, f x = Some p) ->
  length (flat_map (fun x => seen (f x)) l) = length l /\
  forall n, option_map f (nth_error l n) = option_map Some (nth_error (flat_map (fun x => seen (f x)) l) n).
Proof.
  induction l as [ | a l IH]; intros H.
  - split; [ reflexivity | intros [ | n]; reflexivity ].
  - destruct IH as [IL IN]; [ intros x Hx; apply H; right; exact Hx | ].
    destruct (H a (or_introl eq_refl)) as (p & Ep). cbn [flat_map]. rewrite Ep. cbn [seen app length].
    split; [ rewrite IL; reflexivity | ]. intros [ | n]; cbn [nth_error]; [ cbn [option_map]; rewrite Ep; reflexivity | apply IN ].
Qed.
Lemma nth_error_seq s n i : (i < n)%nat -> nth_error (seq s n) i = Some (s + i)%nat.
Proof.
  revert s i; induction n as [ | n IH]; intros s i H; [ lia | ]. cbn [seq]. destruct i as [ | i]; cbn [nth_error]; [ f_equal; lia | ].
  rewrite IH by lia. f_equal; lia.
Qed.
Lemma row_of_points v rows cols r : whole v rows cols -> (r < rows)%nat -> row_of v cols r (row_points v cols r).
Proof.
  intros W Hr. unfold row_of, row_points.
  destruct (flat_seen (fun c => grid_corner v cols r c) (seq 0 cols)) as [L N].
  { intros c Hc. apply in_seq in Hc. unfold grid_corner. apply W. nia. }
  rewrite seq_length in L. split; [ exact L | ].
  intros c Hc. specialize (N c). rewrite nth_error_seq in N by exact Hc. cbn [option_map Nat.add] in N.
  unfold grid_corner at 1 in N. set (pts := flat_map _ _) in *.
  destruct (nth_error pts c) as [p | ] eqn:E; cbn [option_map] in N; [ congruence | discriminate ].
Qed.
Lemma nth_error_eq {A} : forall l m : list A, (forall n, nth_error l n = nth_error m n) -> l = m.
Proof.
  induction l as [ | a l IH]; intros [ | b m] H; [ reflexivity | discriminate (H 0%nat) | discriminate (H 0%nat) | ].
  assert (E : a = b) by (specialize (H 0%nat); cbn [nth_error] in H; congruence). subst b.
  f_equal. apply IH. intros n. exact (H (S n)).
Qed.
Lemma row_of_unique v cols r p q : row_of v cols r p -> row_of v cols r q -> p = q.
Proof.
  intros [L1 H1] [L2 H2]. apply nth_error_eq. intros n.
  destruct (lt_dec n cols) as [Hn | Hn]; [ rewrite <- H1, <- H2 by exact Hn; reflexivity | ].
  rewrite !(proj2 (nth_error_None _ _)) by lia. reflexivity.
Qed.

(** ** One pair of rows *)
Definition opt_list (o : option R) : list (option R) := match o with Some g => [Some g] | None => [] end.
Lemma fits_at v cols rows r : (r < rows)%nat ->
  nth_error (map (fun r => fit_circle (row_points v cols r)) (seq 0 rows)) r = Some (fit_circle (row_points v cols r)).
Proof. intros H. rewrite nth_error_map, nth_error_seq by exact H. reflexivity. Qed.
Lemma dist_nonzero a b : 0 < dist a b -> a <> b.
Proof.
  intros H ->. unfold dist, sq_dist in H. replace ((u0 b - u0 b) * (u0 b - u0 b) + (u1 b - u1 b) * (u1 b - u1 b)) with 0 in H by ring.
  rewrite sqrt_0 in H. lra.
Qed.
Lemma tiny : 0 < / 10 ^ 10. Proof. apply Rinv_0_lt_compat. apply pow_lt. lra. Qed.
Lemma meet_concentric c r1 r2 : 0 <= r1 -> 0 <= r2 -> r1 <> r2 -> meet (u0 c) (u1 c) r1 (u0 c) (u1 c) r2 = [].
Proof.
  intros P1 P2 N. unfold meet, hypot. cbv zeta.
  replace (square (u0 c - u0 c) + square (u1 c - u1 c)) with 0 by (unfold square; ring). rewrite sqrt_0.
  destruct (ltb_spec (r1 + r2) 0) as [[-> L] | [-> _]]; [ lra | ].
  destruct (ltb_spec 0 (Rabs (r1 - r2))) as [[-> L] | [-> L]]; [ reflexivity | ].
  exfalso. unfold Rabs in L. destruct (Rcase_abs (r1 - r2)); lra.
Qed.
Lemma pair_ok v rows cols j k :
  whole v rows cols -> (cols <= rows)%nat ->
  (forall r pts, (r < rows)%nat -> row_of v cols r pts -> ~ straight pts) ->
  (forall j k p1 p2 c r, (j < k < cols)%nat -> row_of v cols j p1 -> row_of v cols k p2 -> fitted p1 c r -> ~ fitted p2 c r) ->
  (j < rows)%nat -> (j < k < cols)%nat ->
  exists o, partner_guess (map (fun r => fit_circle (row_points v cols r)) (seq 0 rows)) j k = Ok (opt_list o) /\
    contributes v cols (j, k) o /\ (forall g, o = Some g -> 0 < g).
Proof.
  intros W CR NS ND Hj Hk. unfold partner_guess. rewrite !fits_at by lia.
  pose proof (row_of_points v rows cols j W Hj) as R1. pose proof (row_of_points v rows cols k W ltac:(lia)) as R2.
  set (p1 := row_points v cols j) in *. set (p2 := row_points v cols k) in *.
  destruct (fit_some p1 (NS j p1 Hj R1)) as (c1 & r1 & E1 & F1 & P1 & _).
  destruct (fit_some p2 (NS k p2 ltac:(lia) R2)) as (c2 & r2 & E2 & F2 & P2 & _).
  rewrite E1, E2.
  assert (MK : forall o, match o with
    | Some x => exists a b, a <> b /\ (forall q, (on_circle c1 r1 q /\ on_circle c2 r2 q) <-> (q = a \/ q = b)) /\ x = dist a b / PI
    | None => forall a b, on_circle c1 r1 a -> on_circle c2 r2 a -> on_circle c1 r1 b -> on_circle c2 r2 b -> dist a b < 2 / 10 ^ 10
    end -> contributes v cols (j, k) o).
  { intros o H. exists p1, p2, c1, r1, c2, r2. cbn [fst snd]. exact (conj R1 (conj R2 (conj F1 (conj F2 H)))). }
  pose proof tiny as TN.
  assert (CD : c1 = c2 \/ c1 <> c2).
  { destruct c1 as [a0 a1], c2 as [b0 b1].
    destruct (Req_dec a0 b0) as [Ea | Ea]; [ destruct (Req_dec a1 b1) as [Eb | Eb]; [ left; congruence | right; congruence ] | right; congruence ]. }
  unfold pair_guess, meet_fits. destruct CD as [<- | CD].
  - assert (r1 <> r2) by (intros <-; exact (ND j k p1 p2 c1 r1 Hk R1 R2 F1 F2)).
    rewrite (meet_concentric c1 r1 r2 P1 P2 H). exists None. split; [ reflexivity | split ]; [ | discriminate ].
    apply MK. intros a b A1 A2. unfold on_circle in *. congruence.
  - destruct (meet_cases c1 r1 c2 r2 P1 P2 CD) as [[-> H] | [(p & -> & _ & H) | (a & b & -> & Hd & H)]].
    + exists None. split; [ reflexivity | split ]; [ | discriminate ]. apply MK. intros a b A1 A2. exfalso. exact (H a (conj A1 A2)).
    + exists None. split; [ reflexivity | split ]; [ | discriminate ]. apply MK. intros a b A1 A2 B1 B2.
      pose proof (dist_triangle a p b) as T. pose proof (H a A1 A2). pose proof (H b B1 B2). rewrite (dist_sym p b) in T. lra.
    + exists (Some (dist a b / PI)). split; [ | split ].
      * rewrite hypot_dist. destruct a, b; reflexivity.
      * apply MK. exists a, b. split; [ apply dist_nonzero; lra | ]. split; [ exact H | reflexivity ].
      * intros g E. assert (Eg : g = dist a b / PI) by congruence. rewrite Eg. apply Rdiv_lt_0_compat; [ lra | apply PI_RGT_0 ].
Qed.
Lemma collect_pairs v cols fits l :
  (forall jk, In jk l -> exists o, partner_guess fits (fst jk) (snd jk) = Ok (opt_list o) /\ contributes v cols jk o /\ (forall g, o = Some g -> 0 < g)) ->
  exists gs, gather (fun jk => partner_guess fits (fst jk) (snd jk)) l = Ok (map Some gs) /\
    collects (contributes v cols) l gs /\ Forall (fun g => 0 < g) gs.
Proof.
  induction l as [ | a l IH]; intros H.
  - exists []. split; [ reflexivity | split; constructor ].
  - destruct IH as (gs & E & C & P); [ intros jk Hjk; apply H; right; exact Hjk | ].
    destruct (H a (or_introl eq_refl)) as (o & Eo & Co & Po). cbn [gather]. rewrite Eo, E. cbn [obind].
    destruct o as [g | ]; cbn [opt_list app].
    + exists (g :: gs). split; [ reflexivity | split ]; [ apply collects_some; assumption | constructor; [ apply Po; reflexivity | exact P ] ].
    + exists gs. split; [ reflexivity | split; [ apply collects_none; assumption | exact P ] ].
Qed.
Lemma view_ok v : suitable v -> exists gs, view_guesses v = Ok (map Some gs) /\ Forall (fun g => 0 < g) gs /\
  forall obs gs', guesses obs gs' -> guesses (v :: obs) (gs ++ gs').
Proof.
  intros (rows & cols & T & H). unfold view_guesses. rewrite T.
  destruct (complete v rows cols) eqn:C.
  - apply complete_whole in C. destruct (H C) as (CR & NS & ND).
    rewrite gather_nested. fold (row_pairs rows cols).
    destruct (collect_pairs v cols (map (fun r => fit_circle (row_points v cols r)) (seq 0 rows)) (row_pairs rows cols)) as (gs & E & Cl & P).
    { intros [j k] Hjk. apply row_pairs_in in Hjk. apply (pair_ok v rows cols j k C CR NS ND); lia. }
    exists gs. split; [ exact E | split; [ exact P | ] ].
    intros obs gs' G. apply (guesses_whole v rows cols); assumption.
  - exists []. split; [ reflexivity | split; [ constructor | ] ].
    intros obs gs' G. apply (guesses_part v rows cols); [ exact T | | exact G ].
    intros W. apply complete_whole in W. congruence.
Qed.
Lemma views_ok obs : Forall suitable obs -> exists gs, gather view_guesses obs = Ok (map Some gs) /\ guesses obs gs /\ Forall (fun g => 0 < g) gs.
Proof.
  induction 1 as [ | v obs Hv _ (gs & E & G & P)].
  - exists []. split; [ reflexivity | split; constructor ].
  - destruct (view_ok v Hv) as (g & Eg & Pg & Gg). exists (g ++ gs). cbn [gather]. rewrite Eg, E. cbn [obind]. rewrite map_app.
    split; [ reflexivity | split; [ apply Gg, G | apply Forall_app; split; assumption ] ].
Qed.

(** ** The median *)
Lemma existsb_false {A} (f : A -> bool) l : (forall x, In x l -> f x = false) -> existsb f l = false.
Proof.
  induction l as [ | a l IH]; intros H; cbn [existsb]; [ reflexivity | ].
  rewrite (H a (or_introl eq_refl)), IH; [ reflexivity | intros x Hx; apply H; right; exact Hx ].
Qed.
Lemma median_numbers srt m : sorts srt -> m <> [] -> exists f, median srt (map Some m) = Ok (Some f) /\ is_median f m.
Proof.
  intros S NE. unfold median.
  assert (U : unsortable (map Some m) = false).
  { unfold unsortable. rewrite existsb_false; [ reflexivity | ]. intros x Hx. apply in_map_iff in Hx as (y & <- & _). reflexivity. }
  rewrite U. destruct (S (map Some m)) as [Pm So].
  apply Permutation_sym, Permutation_map_inv in Pm as (s & Es & Ps). rewrite Es. specialize (So s Es).
  rewrite map_length. assert (L : length s = length m) by (apply Permutation_length; symmetry; exact Ps).
  assert (LP : (0 < length m)%nat) by (destruct m; [ contradiction | cbn [length]; lia ]).
  assert (NT : forall i, (i < length s)%nat -> nth_error (map Some s) i = Some (Some (nth i s 0))).
  { intros i Hi. rewrite nth_error_map, (nth_error_nth' s 0 Hi). reflexivity. }
  pose proof (Nat.div_mod (length m) 2 ltac:(lia)) as DM.
  destruct (Nat.even (length m)) eqn:Ev.
  - apply Nat.even_spec in Ev as (k & Ek).
    assert (E2 : (length m / 2 = k)%nat) by (rewrite Ek, Nat.mul_comm; apply Nat.div_mul; lia).
    rewrite E2, !NT by lia. exists ((nth (k - 1) s 0 + nth k s 0) / 2). split; [ reflexivity | ].
    exists s. split; [ exact Ps | split; [ exact So | ] ]. rewrite L, E2.
    replace ((length m - 1) / 2)%nat with (k - 1)%nat; [ reflexivity | ].
    apply (Nat.div_unique _ 2 _ 1); lia.
  - assert (Od : Nat.odd (length m) = true) by (rewrite <- Nat.negb_even, Ev; reflexivity).
    apply Nat.odd_spec in Od as (k & Ek).
    assert (E2 : (length m / 2 = k)%nat) by (symmetry; apply (Nat.div_unique _ 2 _ 1); lia).
    rewrite E2, NT by lia. exists (nth k s 0). split; [ reflexivity | ].
    exists s. split; [ exact Ps | split; [ exact So | ] ]. rewrite L, E2.
    replace ((length m - 1) / 2)%nat with k; [ lra | ]. apply (Nat.div_unique _ 2 _ 0); lia.
Qed.
Lemma median_pos f m : is_median f m -> m <> [] -> Forall (fun g => 0 < g) m -> 0 < f.
Proof.
  intros (s & P & _ & ->) NE H.
  assert (L : length s = length m) by (apply Permutation_length; symmetry; exact P).
  assert (LP : (0 < length m)%nat) by (destruct m; [ contradiction | cbn [length]; lia ]).
  assert (Hs : forall i, (i < length s)%nat -> 0 < nth i s 0).
  { intros i Hi. rewrite Forall_forall in H. apply H. apply (Permutation_in (l := s)); [ symmetry; exact P | apply nth_In, Hi ]. }
  pose proof (Hs ((length s - 1) / 2)%nat ltac:(apply Nat.div_lt_upper_bound; lia)).
  pose proof (Hs (length s / 2)%nat ltac:(apply Nat.div_lt_upper_bound; lia)). lra.
Qed.
Lemma median_nan srt l : sorts srt -> l <> [] -> Forall (fun g => g = None) l -> median srt l = Ok None.
Proof.
  intros S NE H. unfold median. rewrite Forall_forall in H.
  assert (U : unsortable l = false).
  { unfold unsortable. rewrite andb_comm, existsb_false; [ reflexivity | ]. intros x Hx. rewrite (H x Hx).
    apply existsb_false. intros y _. reflexivity. }
  rewrite U. destruct (S l) as [Pm _].
  assert (L : length (srt l) = length l) by (apply Permutation_length; symmetry; exact Pm).
  assert (LP : (0 < length l)%nat) by (destruct l; [ contradiction | cbn [length]; lia ]).
  assert (NT : forall i, (i < length l)%nat -> nth_error (srt l) i = Some None).
  { intros i Hi. destruct (nth_error (srt l) i) as [x | ] eqn:E.
    - f_equal. apply H. apply (Permutation_in (l := srt l)); [ symmetry; exact Pm | exact (nth_error_In _ _ E) ].
    - apply nth_error_None in E. lia. }
  assert (D : (length l / 2 < length l)%nat) by (apply Nat.div_lt; lia).
  rewrite !NT by lia. destruct (Nat.even (length l)); reflexivity.
Qed.

(** ** Straight rows *)
Lemma view_nan v rows cols : v_target v = Some (rows, cols) -> (whole v rows cols -> (cols <= rows)%nat) ->
  (forall r pts, (r < rows)%nat -> row_of v cols r pts -> straight pts) ->
  exists l, view_guesses v = Ok l /\ Forall (fun g => g = None) l /\ (whole v rows cols -> (2 <= cols)%nat -> l <> []).
Proof.
  intros T CR ST. unfold view_guesses. rewrite T. destruct (complete v rows cols) eqn:C.
  - apply complete_whole in C. specialize (CR C). rewrite gather_nested. fold (row_pairs rows cols).
    assert (G : forall jk, In jk (row_pairs rows cols) ->
      partner_guess (map (fun r => fit_circle (row_points v cols r)) (seq 0 rows)) (fst jk) (snd jk) = Ok [None]).
    { intros [j k] Hjk. apply row_pairs_in in Hjk. cbn [fst snd]. unfold partner_guess. rewrite !fits_at by lia.
      rewrite (fit_none (row_points v cols j)); [ reflexivity | ]. apply (ST j); [ lia | ]. apply (row_of_points v rows); [ exact C | lia ]. }
    assert (K : forall l, (forall jk, In jk l -> partner_guess (map (fun r => fit_circle (row_points v cols r)) (seq 0 rows)) (fst jk) (snd jk) = Ok [None]) ->
      gather (fun jk => partner_guess (map (fun r => fit_circle (row_points v cols r)) (seq 0 rows)) (fst jk) (snd jk)) l = Ok (repeat None (length l))).
    { induction l as [ | a l IH]; intros H; [ reflexivity | ]. cbn [gather]. rewrite (H a (or_introl eq_refl)), IH; [ reflexivity | intros jk Hjk; apply H; right; exact Hjk ]. }
    exists (repeat None (length (row_pairs rows cols))). split; [ apply K, G | split ].
    + apply Forall_forall. intros x Hx. exact (repeat_spec _ _ _ Hx).
    + intros _ H2 E. assert (I : In (0, 1)%nat (row_pairs rows cols)) by (apply row_pairs_in; lia).
      destruct (row_pairs rows cols); [ destruct I | discriminate ].
  - exists []. split; [ reflexivity | split; [ constructor | ] ]. intros W. apply complete_whole in W. congruence.
Qed.

(** ** More columns than rows *)
Lemma partner_tame fits j k : tame (partner_guess fits j k).
Proof. unfold partner_guess. destruct (nth_error fits j), (nth_error fits k); exact I. Qed.
Lemma view_tame v : v_target v <> None -> tame (view_guesses v).
Proof.
  intros H. unfold view_guesses. destruct (v_target v) as [[rows cols] | ]; [ | contradiction ].
  destruct (complete v rows cols); [ | exact I ].
  apply gather_tame; intros j _. apply gather_tame; intros k _. apply partner_tame.
Qed.
Lemma view_ub v rows cols : v_target v = Some (rows, cols) -> whole v rows cols -> (1 <= rows < cols)%nat -> view_guesses v = UB.
Proof.
  intros T W H. unfold view_guesses. rewrite T, (proj2 (complete_whole v rows cols) W).
  apply (gather_ub _ _ 0%nat).
  - intros j _. apply gather_tame; intros k _. apply partner_tame.
  - apply in_seq. lia.
  - apply (gather_ub _ _ rows).
    + intros k _. apply partner_tame.
    + apply in_seq. lia.
    + unfold partner_guess. rewrite (proj2 (nth_error_None _ rows)) by (rewrite map_length, seq_length; lia).
      destruct (nth_error _ 0); reflexivity.
Qed.
