(** * C89: the first guess of the intrinsics of a pinhole camera *)
From Coq Require Import Reals Lra Psatz List Arith Lia ZArith Bool Permutation Sorted.
From Verif Require Import Base DistModel IniModel IniSpec IniProofs IniLoop.
Import ListNotations.
Local Close Scope Z_scope.
Local Open Scope R_scope.

(** The circle fitted to points not on a line has the centre from which the
    squared distances differ least, and the mean distance as radius; of points on
    a circle it is that circle. *)
Theorem C89_fit : forall pts, ~ straight pts ->
  exists c r, fit_circle pts = Some (c, r) /\ fitted pts c r /\ 0 <= r /\
    forall c' r', (forall p, In p pts -> on_circle c' r' p) -> c' = c /\ r' = r.
Proof.
  intros pts S. destruct (fit_some pts S) as (c & r & E & F & P & _). exists c, r.
  split; [ exact E | split; [ exact F | split; [ exact P | ] ] ].
  intros c' r' H. pose proof (fit_circle_exact pts c' r' H S) as E'. rewrite E in E'.
  split; congruence.
Qed.
Print Assumptions C89_fit.
Theorem C89_exact : forall pts c r p q s, (forall x, In x pts -> on_circle c r x) ->
  In p pts -> In q pts -> In s pts -> p <> q -> p <> s -> q <> s -> fit_circle pts = Some (c, r).
Proof.
  intros pts c r p q s H Hp Hq Hs N1 N2 N3. apply fit_circle_exact; [ exact H | ].
  exact (circle_three pts c r p q s H Hp Hq Hs N1 N2 N3).
Qed.
Print Assumptions C89_exact.

(** The points common to two circles *)
Theorem C89_common : forall c1 r1 c2 r2, 0 <= r1 -> 0 <= r2 -> c1 <> c2 ->
  let l := meet (u0 c1) (u1 c1) r1 (u0 c2) (u1 c2) r2 in
  (l = [] /\ forall q, ~ (on_circle c1 r1 q /\ on_circle c2 r2 q)) \/
  (exists p, l = [Some p] /\ (exists q, on_circle c1 r1 q /\ on_circle c2 r2 q) /\
     forall q, on_circle c1 r1 q -> on_circle c2 r2 q -> dist q p < / 10 ^ 10) \/
  (exists a b, l = [Some a; Some b] /\ 2 / 10 ^ 10 <= dist a b /\
     forall q, (on_circle c1 r1 q /\ on_circle c2 r2 q) <-> (q = a \/ q = b)).
Proof. exact meet_cases. Qed.
Print Assumptions C89_common.

(** The focal length is the median of the guesses of all pairs of rows of all
    images that show the whole target. *)
Theorem C89_focal : forall srt manual o obs, sorts srt -> Forall suitable (o :: obs) ->
  (forall g, manual = Some g -> 0 < g) ->
  exists gs f, guesses (o :: obs) gs /\ 0 < f /\
    initialize srt manual (o :: obs) = Ok (Start (Some f) ((INR (im_cols o) - 1) / 2) ((INR (im_rows o) - 1) / 2) (im_cols o) (im_rows o)) /\
    (gs <> [] -> is_median f gs) /\
    (gs = [] -> f = match manual with Some g => g | None => 557 end).
Proof.
  intros srt manual o obs S H M. destruct (views_ok (o :: obs) H) as (gs & E & G & P).
  exists gs. unfold initialize. rewrite E. cbn [obind].
  destruct gs as [ | g gs].
  - cbn [map]. set (f := match manual with Some g => g | None => 557 end).
    assert (F : 0 < f) by (unfold f; destruct manual; [ apply M; reflexivity | lra ]).
    exists f. split; [ exact G | split; [ exact F | split; [ | split; [ contradiction | reflexivity ] ] ] ].
    assert (E1 : (match manual with Some g => if ltb 0 g then Ok [Some g] else Throw | None => Ok [Some 557] end) = Ok (map Some [f])).
    { unfold f. destruct manual as [m | ]; [ | reflexivity ]. destruct (ltb_spec 0 m) as [[-> _] | [_ L]]; [ reflexivity | ].
      pose proof (M m eq_refl); lra. }
    rewrite E1. cbn [obind]. destruct (median_numbers srt [f] S ltac:(discriminate)) as (f' & E2 & s & Ps & _ & Ef). rewrite E2. cbn [obind].
    assert (Es : s = [f]) by (apply Permutation_length_1_inv; exact Ps). rewrite Es in Ef. cbn in Ef.
    replace f' with f by lra. reflexivity.
  - destruct (median_numbers srt (g :: gs) S ltac:(discriminate)) as (f & E2 & Mf). exists f.
    split; [ exact G | split; [ apply (median_pos f (g :: gs) Mf); [ discriminate | exact P ] | split ] ].
    + cbn [map obind] in *. rewrite E2. reflexivity.
    + split; [ intros _; exact Mf | discriminate ].
Qed.
Print Assumptions C89_focal.
(** Without observations, with one without target and with a number that is not
    positive there is an exception. *)
Theorem C89_throws : forall srt manual,
  initialize srt manual [] = Throw /\
  (forall o obs, v_target o = None -> initialize srt manual (o :: obs) = Throw) /\
  (forall g o rows cols, manual = Some g -> g <= 0 -> v_target o = Some (rows, cols) -> ~ whole o rows cols -> initialize srt manual [o] = Throw).
Proof.
  intros srt manual. split; [ reflexivity | split ].
  - intros o obs T. unfold initialize. cbn [gather]. unfold view_guesses at 1. rewrite T. reflexivity.
  - intros g o rows cols E Hg T W. unfold initialize. cbn [gather]. unfold view_guesses. rewrite T.
    destruct (complete o rows cols) eqn:C; [ apply complete_whole in C; contradiction | ]. cbn [obind app]. rewrite E.
    destruct (ltb_spec 0 g) as [[_ L] | [-> _]]; [ lra | reflexivity ].
Qed.
Print Assumptions C89_throws.

(** Violations.  A target with more columns than rows, seen as a whole, makes the
    code read past the end of its arrays. *)
Theorem C89_columns_refuted : forall srt manual obs o rows cols,
  (forall v, In v obs -> v_target v <> None) -> In o obs ->
  v_target o = Some (rows, cols) -> whole o rows cols -> (1 <= rows < cols)%nat ->
  initialize srt manual obs = UB.
Proof.
  intros srt manual obs o rows cols T I E W H.
  assert (G : gather view_guesses obs = UB).
  { apply (gather_ub _ _ o); [ intros v Hv; apply view_tame, T, Hv | exact I | exact (view_ub o rows cols E W H) ]. }
  destruct obs as [ | a obs]; [ destruct I | ]. unfold initialize. rewrite G. reflexivity.
Qed.
Print Assumptions C89_columns_refuted.
(** If the rows are straight in all images, as without distortion, the focal
    length is not a number. *)
Theorem C89_straight_refuted : forall srt manual obs o rows cols, sorts srt ->
  (forall v, In v obs -> exists rows cols, v_target v = Some (rows, cols) /\ (whole v rows cols -> (cols <= rows)%nat) /\
     forall r pts, (r < rows)%nat -> row_of v cols r pts -> straight pts) ->
  In o obs -> v_target o = Some (rows, cols) -> whole o rows cols -> (2 <= cols)%nat ->
  exists s, initialize srt manual obs = Ok s /\ s_focal s = None.
Proof.
  intros srt manual obs o rows cols S H I T W C.
  assert (G : exists l, gather view_guesses obs = Ok l /\ Forall (fun g => g = None) l /\ l <> []).
  { assert (K : forall obs, (forall v, In v obs -> exists rows cols, v_target v = Some (rows, cols) /\ (whole v rows cols -> (cols <= rows)%nat) /\
     forall r pts, (r < rows)%nat -> row_of v cols r pts -> straight pts) ->
     exists l, gather view_guesses obs = Ok l /\ Forall (fun g => g = None) l /\ (In o obs -> l <> [])).
    { clear -T W C. induction obs as [ | v obs IH]; intros H.
      - exists []. split; [ reflexivity | split; [ constructor | intros [] ] ].
      - destruct IH as (l & E & F & N); [ intros x Hx; apply H; right; exact Hx | ].
        destruct (H v (or_introl eq_refl)) as (rv & cv & Tv & CRv & Sv).
        destruct (view_nan v rv cv Tv CRv Sv) as (lv & Ev & Fv & Nv).
        exists (lv ++ l). cbn [gather]. rewrite Ev, E. cbn [obind]. split; [ reflexivity | split; [ apply Forall_app; split; assumption | ] ].
        intros [-> | Ho].
        + rewrite T in Tv. assert (rv = rows) by congruence. assert (cv = cols) by congruence. subst rv cv.
          intros Z. apply app_eq_nil in Z. destruct Z as [Z _]. exact (Nv W C Z).
        + intros Z. apply app_eq_nil in Z. destruct Z as [_ Z]. exact (N Ho Z). }
    destruct (K obs H) as (l & E & F & N). exists l. split; [ exact E | split; [ exact F | exact (N I) ] ]. }
  destruct G as (l & E & F & N). destruct obs as [ | a obs]; [ destruct I | ].
  eexists. unfold initialize. rewrite E. cbn [obind].
  assert (X : (match l with [] => match manual with Some g => if ltb 0 g then Ok [Some g] else Throw | None => Ok [Some 557] end | _ => Ok l end) = Ok l)
    by (destruct l; [ contradiction | reflexivity ]).
  rewrite X. cbn [obind]. rewrite (median_nan srt l S N F). cbn [obind]. split; [ reflexivity | reflexivity ].
Qed.
Print Assumptions C89_straight_refuted.
(** Rows with the same circle give points that are not numbers. *)
Theorem C89_same_refuted : forall pts c r, ~ straight pts -> fitted pts c r ->
  pair_guess (fit_circle pts) (fit_circle pts) = [None].
Proof.
  intros pts c r S F. destruct (fit_some pts S) as (c' & r' & E & F' & P & _). rewrite E.
  unfold pair_guess, meet_fits. rewrite meet_same by exact P. reflexivity.
Qed.
Print Assumptions C89_same_refuted.

(** ** Examples *)
(** A sorting function *)
Fixpoint put (x : option R) (l : list (option R)) : list (option R) :=
  match l with [] => [x] | y :: r => if less y x then y :: put x r else x :: y :: r end.
Definition isort (l : list (option R)) : list (option R) := fold_right put [] l.
Lemma put_perm x l : Permutation (x :: l) (put x l).
Proof.
  induction l as [ | y l IH]; cbn [put]; [ apply Permutation_refl | ].
  destruct (less y x); [ | apply Permutation_refl ].
  apply perm_trans with (y :: x :: l); [ apply perm_swap | apply perm_skip, IH ].
Qed.
Lemma isort_perm l : Permutation l (isort l).
Proof. induction l as [ | x l IH]; cbn [isort fold_right]; [ constructor | ]. apply perm_trans with (x :: isort l); [ apply perm_skip, IH | apply put_perm ]. Qed.
Lemma put_sorted x : forall l m, StronglySorted Rle l -> put (Some x) (map Some l) = map Some m -> StronglySorted Rle m /\ Permutation (x :: l) m.
Proof.
  induction l as [ | y l IH]; intros m Sl E; cbn [put map] in E.
  - destruct m as [ | z [ | w m]]; try discriminate. assert (z = x) by (cbn [map] in E; congruence). subst z.
    split; [ constructor; constructor | apply Permutation_refl ].
  - unfold less in E. destruct (ltb_spec y x) as [[L Lt] | [L Le]]; rewrite L in E.
    + destruct m as [ | z m]; [ discriminate | ]. cbn [map] in E.
      assert (z = y) by congruence. subst z. assert (E' : put (Some x) (map Some l) = map Some m) by congruence.
      apply StronglySorted_inv in Sl as [Sl Fl]. destruct (IH m Sl E') as [Sm Pm].
      split; [ constructor; [ exact Sm | ] | ].
      * apply Forall_forall. intros w Hw. apply (Permutation_in w (Permutation_sym Pm)) in Hw.
        destruct Hw as [<- | Hw]; [ lra | ]. rewrite Forall_forall in Fl. exact (Fl w Hw).
      * apply perm_trans with (y :: x :: l); [ apply perm_swap | apply perm_skip, Pm ].
    + assert (Em : m = x :: y :: l).
      { destruct m as [ | z m]; [ discriminate | ]. destruct m as [ | w m]; [ discriminate | ]. cbn [map] in E.
        assert (z = x) by congruence. assert (w = y) by congruence. assert (M : map Some l = map Some m) by congruence. subst.
        f_equal. f_equal. clear -M. revert m M. induction l as [ | a l IH]; intros [ | b m] M; try discriminate; [ reflexivity | ].
        cbn [map] in M. assert (a = b) by congruence. subst. f_equal. apply IH. congruence. }
      rewrite Em. split; [ | apply Permutation_refl ]. constructor; [ exact Sl | ].
      apply StronglySorted_inv in Sl as [_ Fl]. constructor; [ exact Le | ].
      apply Forall_forall. intros w Hw. rewrite Forall_forall in Fl. pose proof (Fl w Hw). lra.
Qed.
Lemma isort_sorts : sorts isort.
Proof.
  intros l. split; [ apply isort_perm | ].
  induction l as [ | x l IH]; intros m E; cbn [isort fold_right] in E.
  - destruct m; [ constructor | discriminate ].
  - fold (isort l) in E.
    assert (A : forall y, In y (x :: isort l) -> y <> None).
    { intros y Hy. pose proof (Permutation_in y (put_perm x (isort l)) Hy) as Hy'. rewrite E in Hy'.
      apply in_map_iff in Hy' as (z & <- & _). discriminate. }
    assert (K : forall l, (forall y : option R, In y l -> y <> None) -> exists k, l = map Some k).
    { clear. induction l as [ | a l IH]; intros H; [ exists []; reflexivity | ].
      destruct IH as (k & Ek); [ intros y Hy; apply H; right; exact Hy | ].
      destruct a as [a | ]; [ exists (a :: k); cbn [map]; congruence | exfalso; exact (H None (or_introl eq_refl) eq_refl) ]. }
    destruct (K (isort l)) as (k & Ek); [ intros y Hy; apply A; right; exact Hy | ].
    destruct x as [x | ]; [ | exfalso; exact (A None (or_introl eq_refl) eq_refl) ].
    rewrite Ek in E. exact (proj1 (put_sorted x k m (IH k Ek) E)).
Qed.

(** Three rows of three corners on circles around (0,0), (6,0) and (100,0) of
    radius 5: the first two circles share (3,4) and (3,-4). *)
Definition row0 := [V2 5 0; V2 0 5; V2 (-5) 0].
Definition row1 := [V2 11 0; V2 6 5; V2 1 0].
Definition row2 := [V2 105 0; V2 100 5; V2 95 0].
Definition shot : view := View (Some (3, 3)%nat) 480 640 (nth_error (row0 ++ row1 ++ row2)).
Lemma sqrt_25 : sqrt 25 = 5. Proof. replace 25 with (5 * 5) by lra. apply sqrt_square; lra. Qed.
Lemma on5 a b x y : (x - a) * (x - a) + (y - b) * (y - b) = 25 -> on_circle (V2 a b) 5 (V2 x y).
Proof. intros H. unfold on_circle, dist, sq_dist. cbn [u0 u1]. rewrite H. exact sqrt_25. Qed.
Lemma circ a : forall x, In x [V2 (a + 5) 0; V2 a 5; V2 (a - 5) 0] -> on_circle (V2 a 0) 5 x.
Proof. intros x [<- | [<- | [<- | []]]]; apply on5; ring. Qed.
Lemma circ_bent a : ~ straight [V2 (a + 5) 0; V2 a 5; V2 (a - 5) 0].
Proof.
  apply (circle_three _ (V2 a 0) 5 (V2 (a + 5) 0) (V2 a 5) (V2 (a - 5) 0) (circ a)).
  - left; reflexivity.
  - right; left; reflexivity.
  - right; right; left; reflexivity.
  - intros E. assert (a + 5 = a) by congruence. lra.
  - intros E. assert (a + 5 = a - 5) by congruence. lra.
  - intros E. assert (a = a - 5) by congruence. lra.
Qed.
Lemma circ_fitted a c r : fitted [V2 (a + 5) 0; V2 a 5; V2 (a - 5) 0] c r -> c = V2 a 0 /\ r = 5.
Proof.
  intros F. destruct (fit_some _ (circ_bent a)) as (c' & r' & E & F' & _).
  rewrite (fit_circle_exact _ _ _ (circ a) (circ_bent a)) in E.
  destruct (fitted_unique _ _ _ _ _ F F') as [-> ->]. split; congruence.
Qed.
Lemma rows_eq : row0 = [V2 (0 + 5) 0; V2 0 5; V2 (0 - 5) 0] /\ row1 = [V2 (6 + 5) 0; V2 6 5; V2 (6 - 5) 0] /\ row2 = [V2 (100 + 5) 0; V2 100 5; V2 (100 - 5) 0].
Proof. unfold row0, row1, row2. split; [ | split ]; repeat f_equal; lra. Qed.
Definition centre_x (r : nat) : R := match r with 0%nat => 0 | 1%nat => 6 | _ => 100 end.
Lemma shot_row r pts : (r < 3)%nat -> row_of shot 3 r pts -> pts = [V2 (centre_x r + 5) 0; V2 (centre_x r) 5; V2 (centre_x r - 5) 0].
Proof.
  intros Hr H.
  assert (X : row_of shot 3 r (match r with 0%nat => row0 | 1%nat => row1 | _ => row2 end)).
  { split; [ destruct r as [ | [ | r]]; reflexivity | ]. intros c Hc.
    destruct r as [ | [ | [ | r]]]; [ .. | lia ]; destruct c as [ | [ | [ | c]]]; try lia; reflexivity. }
  rewrite (row_of_unique _ _ _ _ _ H X). destruct rows_eq as (E0 & E1 & E2).
  destruct r as [ | [ | r]]; [ exact E0 | exact E1 | exact E2 ].
Qed.
Lemma shot_whole : whole shot 3 3.
Proof.
  intros i Hi. cbn [corner shot]. destruct (nth_error (row0 ++ row1 ++ row2) i) as [p | ] eqn:E; [ exists p; reflexivity | ].
  apply nth_error_None in E. cbn in E. lia.
Qed.
Lemma shot_suitable : suitable shot.
Proof.
  exists 3%nat, 3%nat. split; [ reflexivity | ]. intros _. split; [ lia | split ].
  - intros r pts Hr H. rewrite (shot_row r pts Hr H). apply circ_bent.
  - intros j k p1 p2 c r Hjk H1 H2 F1 F2.
    rewrite (shot_row j p1 ltac:(lia) H1) in F1. rewrite (shot_row k p2 ltac:(lia) H2) in F2.
    apply circ_fitted in F1 as [E1 _]. apply circ_fitted in F2 as [E2 _].
    assert (centre_x j = centre_x k) by congruence.
    destruct j as [ | [ | [ | j]]]; destruct k as [ | [ | [ | k]]]; try lia; cbn [centre_x] in *; lra.
Qed.
Example C89_ex : exists gs f, guesses [shot] gs /\ 0 < f /\
  initialize isort None [shot] = Ok (Start (Some f) ((640 - 1) / 2) ((480 - 1) / 2) 640 480) /\ f = 8 / PI.
Proof.
  destruct (C89_focal isort None shot [] isort_sorts (Forall_cons _ shot_suitable (Forall_nil _)) ltac:(discriminate)) as (gs & f & G & P & E & M & _).
  exists gs, f. split; [ exact G | split; [ exact P | ] ].
  assert (R640 : INR 640 = 640) by (rewrite INR_IZR_INZ; reflexivity).
  assert (R480 : INR 480 = 480) by (rewrite INR_IZR_INZ; reflexivity).
  split; [ rewrite E; cbn [im_cols im_rows shot]; rewrite R640, R480; reflexivity | ].
  assert (U : forall j k g, (j < 3)%nat -> (k < 3)%nat -> contributes shot 3 (j, k) g ->
    match g with
    | Some x => exists a b, a <> b /\ (forall q, (on_circle (V2 (centre_x j) 0) 5 q /\ on_circle (V2 (centre_x k) 0) 5 q) <-> (q = a \/ q = b)) /\ x = dist a b / PI
    | None => forall a b, on_circle (V2 (centre_x j) 0) 5 a -> on_circle (V2 (centre_x k) 0) 5 a -> on_circle (V2 (centre_x j) 0) 5 b -> on_circle (V2 (centre_x k) 0) 5 b -> dist a b < 2 / 10 ^ 10
    end).
  { intros j k g Hj Hk (p1 & p2 & c1 & r1 & c2 & r2 & R1 & R2 & F1 & F2 & H). cbn [fst snd] in *.
    rewrite (shot_row j p1 Hj R1) in F1. rewrite (shot_row k p2 Hk R2) in F2.
    apply circ_fitted in F1 as [-> ->]. apply circ_fitted in F2 as [-> ->]. exact H. }
  assert (D8 : dist (V2 3 4) (V2 3 (-4)) = 8).
  { unfold dist, sq_dist. cbn [u0 u1]. replace ((3 - 3) * (3 - 3) + (4 - -4) * (4 - -4)) with (8 * 8) by ring. apply sqrt_square; lra. }
  assert (Q1 : on_circle (V2 0 0) 5 (V2 3 4)) by (apply on5; ring).
  assert (Q2 : on_circle (V2 6 0) 5 (V2 3 4)) by (apply on5; ring).
  assert (Q3 : on_circle (V2 0 0) 5 (V2 3 (-4))) by (apply on5; ring).
  assert (Q4 : on_circle (V2 6 0) 5 (V2 3 (-4))) by (apply on5; ring).
  assert (FAR : forall x q, x = 0 \/ x = 6 -> ~ (on_circle (V2 x 0) 5 q /\ on_circle (V2 100 0) 5 q)).
  { intros x q Hx [A1 A2]. apply on_circle_sq in A1; [ | lra ]. apply on_circle_sq in A2; [ | lra ]. unfold sq_dist in *. cbn [u0 u1] in *.
    destruct Hx as [-> | ->]; nra. }
  assert (EG : gs = [8 / PI]).
  { inversion G as [ | v rows cols obs g0 T W _ | v rows cols obs g g0 T W C Gn]; subst.
    - exfalso. apply W. assert (rows = 3%nat) by (cbn [v_target shot] in T; congruence). assert (cols = 3%nat) by (cbn [v_target shot] in T; congruence).
      subst. exact shot_whole.
    - assert (rows = 3%nat) by (cbn [v_target shot] in T; congruence). assert (cols = 3%nat) by (cbn [v_target shot] in T; congruence). subst.
      inversion Gn; subst. rewrite app_nil_r. clear Gn G T W.
      change (row_pairs 3 3) with [(0, 1); (0, 2); (1, 2)]%nat in C.
      assert (Tail : forall l, collects (contributes shot 3) [(0, 2); (1, 2)]%nat l -> l = []).
      { intros l Cl. inversion Cl as [ | a0 l0 g0 H0 C0 | a0 l0 x0 g0 H0 C0 ]; subst.
        - inversion C0 as [ | a1 l1 g1 H1 C1 | a1 l1 x1 g1 H1 C1 ]; subst.
          + inversion C1. reflexivity.
          + destruct (U 1%nat 2%nat _ ltac:(lia) ltac:(lia) H1) as (a & b & _ & Hq & _). exfalso.
            exact (FAR 6 a (or_intror eq_refl) (proj2 (Hq a) (or_introl eq_refl))).
        - destruct (U 0%nat 2%nat _ ltac:(lia) ltac:(lia) H0) as (a & b & _ & Hq & _). exfalso.
          exact (FAR 0 a (or_introl eq_refl) (proj2 (Hq a) (or_introl eq_refl))). }
      inversion C as [ | a0 l0 g0 H0 C0 | a0 l0 x0 g0 H0 C0 ]; subst.
      + exfalso. pose proof (U 0%nat 1%nat None ltac:(lia) ltac:(lia) H0) as K. cbv beta iota in K. cbn [centre_x] in K.
        pose proof (K _ _ Q1 Q2 Q3 Q4) as K'. rewrite D8 in K'.
        assert (/ 10 ^ 10 <= 1). { rewrite <- Rinv_1. apply Rinv_le_contravar; [ lra | ]. apply pow_R1_Rle; lra. } lra.
      + destruct (U 0%nat 1%nat (Some x0) ltac:(lia) ltac:(lia) H0) as (a & b & Nab & Hq & ->). cbn [centre_x] in Hq.
        rewrite (Tail _ C0). f_equal. f_equal.
        assert (V2 3 4 <> V2 3 (-4)) by (intros E0; assert (4 = -4) by congruence; lra).
        destruct (proj1 (Hq (V2 3 4)) (conj Q1 Q2)) as [<- | <-]; destruct (proj1 (Hq (V2 3 (-4))) (conj Q3 Q4)) as [Ea | Ea]; try congruence.
        rewrite <- Ea, dist_sym. exact D8. }
  specialize (M ltac:(rewrite EG; discriminate)). rewrite EG in M. destruct M as (s & Ps & _ & Ef).
  assert (Es : s = [8 / PI]) by (apply Permutation_length_1_inv; exact Ps). rewrite Es in Ef. cbn in Ef. lra.
Qed.
(** A row of an image without distortion: corners on a horizontal line *)
Definition level : view := View (Some (3, 3)%nat) 480 640 (fun i => if (i <? 9)%nat then Some (V2 (INR (i mod 3)) (INR (i / 3))) else None).
Example C89_level : exists s, initialize isort None [level] = Ok s /\ s_focal s = None.
Proof.
  apply (C89_straight_refuted isort None [level] level 3 3 isort_sorts).
  - intros v [<- | []]. exists 3%nat, 3%nat. split; [ reflexivity | split; [ lia | ] ].
    intros r pts Hr [L H]. exists 0, 1, (INR r). split; [ right; lra | ].
    intros p Hp. apply In_nth_error in Hp as (c & Ec).
    assert (Hc : (c < 3)%nat) by (rewrite <- L; apply nth_error_Some; congruence).
    specialize (H c Hc). rewrite Ec in H. cbn [corner level] in H.
    rewrite (proj2 (Nat.ltb_lt (3 * r + c) 9)) in H by lia.
    assert (Ep : p = V2 (INR ((3 * r + c) mod 3)) (INR ((3 * r + c) / 3))) by congruence. rewrite Ep. cbn [u0 u1].
    replace ((3 * r + c) / 3)%nat with r by (apply (Nat.div_unique _ 3 _ c); lia). lra.
  - left; reflexivity.
  - reflexivity.
  - intros i Hi. cbn [corner level]. rewrite (proj2 (Nat.ltb_lt i 9)) by lia. eexists; reflexivity.
  - lia.
Qed.
(** A target with three rows of four corners *)
Example C89_wide : initialize isort None [View (Some (3, 4)%nat) 480 640 (fun i => Some (V2 (INR i) (INR i * INR i)))] = UB.
Proof.
  apply (C89_columns_refuted _ _ _ (View (Some (3, 4)%nat) 480 640 (fun i => Some (V2 (INR i) (INR i * INR i)))) 3 4).
  - intros v [<- | []]. discriminate.
  - left; reflexivity.
  - reflexivity.
  - intros i _. eexists; reflexivity.
  - lia.
Qed.
