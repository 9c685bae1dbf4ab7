(** * C73: the transformation of a pose curve at an estimated time *)
From Coquelicot Require Import Coquelicot.
From Coq Require Import Reals List Arith ZArith Bool Lia Lra.
From Verif Require Import Base KinModel KinSpec KinProofs KinCurve RotModel RotSpec TfModel TfSpec TfProofs
  BsplModel BsplSpec BsplProofs BsdProofs BsplProps BsdProps BshModel BsfProps BsfProofs BshProofs BshProps
  BpModel BpSpec BpProofs BpProps SplModel SplSpec SplProofs SplProps ToModel ToSpec ToProofs.
Import ListNotations.
Local Open Scope R_scope.

(** The expression can be made at every time of the curve with margins that are
    not negative.  It can be evaluated at every time within the margins and
    before the end of the curve, with the value of the curve, and names all the
    variables that value depends on. *)
Theorem C73_make : forall K k l C c sv t bl br, reachable sv -> built k l 6 C c (cv sv) -> nondecreasing l -> long_end k l ->
  first_time k l <= t <= last_time k l -> 0 <= bl -> 0 <= br ->
  exists n ids, make_time_node sv t bl br = Ok n /\ time_node_variables sv n = Ok ids /\ NoDup ids /\
    forall u, first_time k l <= u < last_time k l -> t - bl <= u <= t + br ->
      (exists T, time_node K sv n u = Ok T /\ transformation K (cv sv) u = Ok T) /\
      exists us, variables_at sv u = Ok us /\ incl us ids.
Proof.
  intros K k l C c sv t bl br RE BU ND LE I BL BR. pose proof (reachable_aligned sv RE) as A.
  destruct (make_time_node_spec sv k l 6 C c t bl br BU ND LE I BL BR) as (n & sl & sr & EN & LI & S1 & S2 & B1 & B2 & B3 & SEG & _).
  destruct (built_wf _ _ _ _ _ _ BU ND) as [W [O [KK [DD [NC [CO [K2 [CC LL]]]]]]]].
  destruct (built_times _ _ _ _ _ _ BU ND) as [T1 [T2 T3]].
  exists n, (map (ido sv) (seq (sl + 1 - k) (sr - sl + k))). split; [ exact EN | ].
  split. { unfold time_node_variables. rewrite LI. apply variables_of_seq. rewrite (al_len _ A), NC. lia. }
  split.
  { apply (NoDup_nth _ 0%nat). rewrite map_length, seq_length. intros i j Li Lj E.
    assert (N0 : forall m, (m < sr - sl + k)%nat -> nth m (map (ido sv) (seq (sl + 1 - k) (sr - sl + k))) 0%nat = ido sv (sl + 1 - k + m)).
    { intros m Lm. rewrite (nth_indep _ 0%nat (ido sv 0)) by (rewrite map_length, seq_length; exact Lm). rewrite map_nth, seq_nth by exact Lm. reflexivity. }
    rewrite !N0 in E by assumption.
    assert (D1 := dv_ido sv (sl + 1 - k + i) ltac:(rewrite (al_len _ A), NC; lia)).
    assert (D2 := dv_ido sv (sl + 1 - k + j) ltac:(rewrite (al_len _ A), NC; lia)). rewrite <- E in D2.
    pose proof (proj2 (proj2 (C72_variables sv RE)) _ _ _ D1 D2). lia. }
  intros u Iu Mu.
  assert (BUF : buf_lo n <= u < buf_hi n).
  { split; [ | destruct B3 as [ B3 | -> ]; lra ].
    eapply Rle_trans; [ exact (proj2 B1) | ]. apply Rmax_lub; lra. }
  split.
  - unfold time_node, in_buffer. rewrite rleb_true, rltb_true by lra. cbn [andb].
    destruct (C65_total k l 6 C c (cv sv) 0 BU ND LE) as (F & HF). destruct (HF 0%nat u ltac:(lra)) as (v & EV & _).
    change (Z.of_nat 0) with 0%Z in EV. exists (curve_to_T K v). unfold transformation, eval. rewrite EV. split; reflexivity.
  - destruct (located_exists (cv sv) u W ltac:(rewrite T1, T2; lra)) as (s & LO). pose proof (SEG u s BUF LO) as SS.
    assert (S3 := proj1 LO). rewrite O, NC in S3.
    exists (map (ido sv) (seq (s + 1 - k) k)). unfold variables_at. rewrite (located_vv _ _ _ W LO), O. cbn [obind].
    split; [ apply pick_seq; rewrite (al_len _ A), NC; lia | ].
    intros x Hx. apply in_map_iff in Hx. destruct Hx as (m & <- & Hm). apply in_seq in Hm. apply in_map. apply in_seq. lia.
Qed.
Print Assumptions C73_make.

(** At the end of the curve the expression always throws, although the curve
    has a value there. *)
Theorem C73_end_refuted : forall K k l C c sv t bl br n, reachable sv -> built k l 6 C c (cv sv) -> nondecreasing l -> long_end k l ->
  first_time k l <= t <= last_time k l -> 0 <= bl -> 0 <= br -> make_time_node sv t bl br = Ok n ->
  time_node K sv n (last_time k l) = Throw /\ exists T, transformation K (cv sv) (last_time k l) = Ok T.
Proof.
  intros K k l C c sv t bl br n RE BU ND LE I BL BR EN.
  destruct (make_time_node_spec sv k l 6 C c t bl br BU ND LE I BL BR) as (n' & sl & sr & EN' & LI & S1 & S2 & B1 & B2 & _).
  assert (n' = n) by congruence. subst n'. split.
  - unfold time_node, in_buffer. rewrite (rltb_false (last_time k l)) by lra. rewrite andb_false_r. reflexivity.
  - destruct (C65_total k l 6 C c (cv sv) 0 BU ND LE) as (F & HF). destruct (HF 0%nat (last_time k l) ltac:(lra)) as (v & EV & _).
    change (Z.of_nat 0) with 0%Z in EV. exists (curve_to_T K v). unfold transformation, eval. rewrite EV. reflexivity.
Qed.
Print Assumptions C73_end_refuted.

(** Jacobians: for every motion of the variables together with the time, the
    blocks times the rates plus the last column times the rate of the time give
    the perturbation of the value, multiplied with the chain-rule matrix.
    Without a chain rule this holds if the first index is 0; otherwise the
    block of a negative column is read. *)
Theorem C73_jacobian : forall K dom k l C c sv t bl br n ids u rate svs tau td, parametrises K dom -> reachable sv ->
  built k l 6 C c (cv sv) -> nondecreasing l -> long_end k l ->
  first_time k l <= t <= last_time k l -> 0 <= bl -> 0 <= br -> make_time_node sv t bl br = Ok n ->
  time_node_variables sv n = Ok ids -> buf_lo n < u < buf_hi n -> smooth_at k l C u ->
  rotation_ok dom (cv sv) u -> moving_vars sv rate svs -> moving_time tau u td ->
  exists (M : R -> m4) d, locally 0 (fun s => time_node K (svs s) n (tau s) = Ok (M s)) /\ time_node K sv n u = Ok (M 0) /\
    perturbed M 0 d /\
    (forall A, exists E p, time_node_chain K sv n u A = Ok (E, p) /\ map fst E = ids /\
       forall r, applied 6 (fun x => x r) E rate + td * p r = row6 (A r) d) /\
    (hd 0%nat (local_idx n) = 0%nat -> exists E p, time_node_J K sv n u = Ok (E, p) /\ map fst E = ids /\
       v6_plus (applied6 E rate) td p = d) /\
    (hd 0%nat (local_idx n) <> 0%nat -> time_node_J K sv n u = UB).
Proof.
  intros K dom k l C c sv t bl br n ids u rate svs tau td PK RE BU ND LE I BL BR EN EI BUF SM RO (y & yd & bs & MV & SV & RT) MT.
  pose proof (reachable_aligned sv RE) as A.
  destruct (make_time_node_spec sv k l 6 C c t bl br BU ND LE I BL BR) as (n' & sl & sr & EN' & LI & S1 & S2 & B1 & B2 & B3 & SEG & _).
  assert (n' = n) by congruence. subst n'.
  destruct (built_wf _ _ _ _ _ _ BU ND) as [W [O [KK [DD [NC [CO [K2 [CC LL]]]]]]]]. rewrite DD, NC in MV.
  destruct (built_times _ _ _ _ _ _ BU ND) as [T1 [T2 T3]].
  destruct (curve_moves_both k l C c (cv sv) u y yd bs tau td BU ND LE SM MV MT)
    as (v & js & idx & v1 & V & EJ & EV & EV1 & EIX & LOC & V0 & V0' & DH & DT).
  pose proof (smooth_inside _ _ _ _ _ _ _ BU ND SM) as IU.
  destruct (located_exists (cv sv) u W ltac:(rewrite T1, T2; lra)) as (s & LO). pose proof (SEG u s ltac:(lra) LO) as SS.
  assert (S3 := proj1 LO). rewrite O, NC in S3.
  assert (EVV : local_vv_indices (cv sv) u = Ok (seq (s + 1 - k) k)) by (rewrite (located_vv _ _ _ W LO), O; reflexivity).
  set (lo := (s + 1 - k)%nat) in *.
  assert (LV : length (vars sv) = C) by (rewrite (al_len _ A); exact NC).
  set (nn := Node u (map (ido sv) (seq lo k))).
  assert (FT : fits sv nn).
  { unfold fits, variables_at. cbn [nn ntime nvars]. rewrite EVV. cbn [obind]. apply pick_seq. unfold lo. lia. }
  set (jt := M6 m3_I (m3_mul (m3_neg (crossMx (head3 v))) (kS K (tail3 v))) m3_zero (kS K (tail3 v))).
  set (J := fun m => m6_vec jt (column js m)).
  set (p := m6_vec jt (V6 (head3 v1) (tail3 v1))).
  assert (EP : time_parts K sv u = Ok (lo, (lo + k - 1)%nat, J, p)).
  { unfold time_parts. rewrite EVV, EJ. cbn [obind]. unfold curve_to_T_J. rewrite EV1. cbn [obind].
    destruct k as [ | k ]; [ lia | ]. cbn [seq]. change (?a :: seq (S ?a) k) with (seq a (S k)). rewrite last_seq by lia. reflexivity. }
  destruct (node_blocks sv nn k l 6 C c rate y yd bs svs ltac:(lia) A BU ND LE ltac:(cbn [nn ntime]; lra) FT MV SV RT J) as (i1 & EI1 & _ & SUM).
  cbn [nn ntime] in EI1. assert (i1 = idx) by congruence. subst i1. cbn [nn nvars] in SUM.
  assert (INB : in_buffer n u = true) by (unfold in_buffer; rewrite rleb_true, rltb_true by lra; reflexivity).
  set (d := m6_vec jt (V6 (v3_add (hd3 (times6 (k * 6) (column js) (picked yd idx))) (v3_scale td (head3 v1)))
                          (v3_add (tl3 (times6 (k * 6) (column js) (picked yd idx))) (v3_scale td (tail3 v1))))).
  assert (DE : d = v6_plus (times6 (k * 6) J (picked yd idx)) td p).
  { unfold J. rewrite <- m6_times. unfold d, p. destruct (times6 (k * 6) (column js) (picked yd idx)) as [h g]. cbn [hd3 tl3].
    generalize jt, (head3 v1), (tail3 v1), td. clear. intros [A B C D] x y z. unfold v6_plus, m6_vec. cbn [hd3 tl3]. kring. }
  exists (fun s => curve_to_T K (V s)), d.
  destruct MT as (MT0 & MTD).
  split.
  { assert (CT : continuous tau 0) by (apply (ex_derive_continuous tau); exists td; exact MTD).
    assert (NB : locally (tau 0) (fun x => buf_lo n < x < buf_hi n)).
    { rewrite MT0. apply (locally_interval _ u (buf_lo n) (buf_hi n)); [ cbn; lra | cbn; lra | ]. intros x U1 U2. cbn in U1, U2. lra. }
    pose proof (CT _ NB) as NB'. unfold filtermap in NB'.
    eapply filter_imp; [ | exact (filter_and _ _ LOC NB') ]. cbv beta. intros x ((_ & E1) & X2).
    unfold time_node, in_buffer. rewrite rleb_true, rltb_true by lra. cbn [andb]. rewrite SV. unfold transformation. cbn [cv]. rewrite E1. reflexivity. }
  assert (C0 : curve_to_T K (V 0) = curve_to_T K v) by (unfold curve_to_T; rewrite V0, V0'; reflexivity).
  split. { unfold time_node. rewrite INB. unfold transformation, eval. rewrite EV, C0. reflexivity. }
  split.
  { pose proof (RO v EV) as DO. change (V3 (v 3%nat) (v 4%nat) (v 5%nat)) with (tail3 v) in DO. rewrite <- V0' in DO.
    pose proof (pose_moves K dom PK _ _ 0 _ _ DH DT DO) as X. cbv beta in X. rewrite V0, V0' in X. exact X. }
  assert (LID : (sl + 1 - k + (sr - sl + k) <= length (vars sv))%nat) by (rewrite LV; lia).
  assert (IDS : ids = map (ido sv) (seq (sl + 1 - k) (sr - sl + k))).
  { unfold time_node_variables in EI. rewrite LI, variables_of_seq in EI by exact LID. congruence. }
  assert (FST : forall (X : Type) (B : nat -> X) z L, map fst (map (entry sv k lo B z) L) = map (ido sv) L).
  { intros X B z L. rewrite map_map. reflexivity. }
  assert (HD : hd 0%nat (local_idx n) = (sl + 1 - k)%nat).
  { rewrite LI. destruct (sr - sl + k)%nat eqn:Z; [ lia | ]. reflexivity. }
  split; [ | split ].
  - intros B. eexists. eexists. split.
    { unfold time_node_chain. rewrite INB, EP. cbn [obind]. rewrite O, LI. rewrite chain_loop_ok; [ cbn [obind]; reflexivity | lia | exact LID | ].
      unfold lo. lia. }
    split; [ rewrite IDS; apply FST | ]. intros r.
    rewrite applied_entries by (unfold lo; first [ lia | unfold chain6, zero_v6; cbn [hd3 tl3]; unfold v3_zero, v3_dot; cbn [x0 x1 x2]; ring ]).
    assert (CH : applied 6 (fun x => x r) (blocks 6 (fun m => chain6 B (J m)) (map (ido sv) (seq lo k))) rate =
                 row6 (B r) (times6 (k * 6) J (picked yd idx))).
    { pose proof (chain6_applied B (blocks 6 J (map (ido sv) (seq lo k))) rate r) as X.
      assert (BB : chained (chain6 B) (blocks 6 J (map (ido sv) (seq lo k))) = blocks 6 (fun m => chain6 B (J m)) (map (ido sv) (seq lo k))).
      { unfold chained, blocks. rewrite map_map. reflexivity. }
      rewrite BB in X. rewrite X. unfold applied6, applied3. rewrite !SUM. unfold row6, times6, times3. cbn [hd3 tl3 x0 x1 x2].
      unfold v3_dot. cbn [x0 x1 x2]. ring. }
    match type of CH with ?x = _ => match goal with |- _ + ?b = ?e => change (x + b = e) end end. rewrite CH, DE. unfold row6, v6_plus, chain6, v3_dot. cbn [hd3 tl3 x0 x1 x2]. ring.
  - intros H0. rewrite HD in H0. eexists. eexists. split.
    { unfold time_node_J. rewrite INB, EP. cbn [obind]. rewrite O, LI, H0. rewrite plain_loop_ok by lia. cbn [obind]. reflexivity. }
    split; [ rewrite IDS, H0; apply FST | ]. rewrite DE. unfold applied6, applied3.
    rewrite !applied_entries by (unfold lo; first [ lia | reflexivity ]). rewrite !SUM. reflexivity.
  - intros H0. rewrite HD in H0. unfold time_node_J. rewrite INB, EP. cbn [obind]. rewrite O, LI.
    rewrite plain_loop_bad; [ reflexivity | lia | exact LID | lia | unfold lo; lia | unfold lo; lia ].
Qed.
Print Assumptions C73_jacobian.

(** Made from a time minus left margin after the first segment, the expression
    has no Jacobian without a chain rule anywhere. *)
Theorem C73_plain_refuted : forall K k l C c sv t bl br n u, reachable sv -> built k l 6 C c (cv sv) -> nondecreasing l -> long_end k l ->
  first_time k l <= t <= last_time k l -> 0 <= bl -> 0 <= br -> make_time_node sv t bl br = Ok n ->
  knot l k <= t - bl < last_time k l -> buf_lo n <= u < buf_hi n -> time_node_J K sv n u = UB.
Proof.
  intros K k l C c sv t bl br n u RE BU ND LE I BL BR EN FAR BUF.
  pose proof (reachable_aligned sv RE) as A.
  destruct (make_time_node_spec sv k l 6 C c t bl br BU ND LE I BL BR) as (n' & sl & sr & EN' & LI & S1 & S2 & B1 & B2 & B3 & SEG & LEFT & _).
  assert (n' = n) by congruence. subst n'.
  destruct (built_wf _ _ _ _ _ _ BU ND) as [W [O [KK [DD [NC [CO [K2 [CC LL]]]]]]]].
  destruct (built_times _ _ _ _ _ _ BU ND) as [T1 [T2 T3]]. unfold long_end in LE.
  assert (LE' : last_start (cv sv) + / 10000000000 <= hi (cv sv)) by (rewrite T2, T3; lra).
  assert (KF : first_time k l <= knot l k) by (unfold first_time; apply ND; lia).
  destruct (located_exists (cv sv) (t - bl) W ltac:(rewrite T1, T2; lra)) as (s0 & L0).
  pose proof (LEFT s0 L0 ltac:(rewrite T1; lra)) as ->.
  assert (S0 : (k <= s0)%nat).
  { pose proof (located_bounds (cv sv) (t - bl) s0 W LE' ltac:(rewrite T1, T2; lra) L0) as (X1 & X2 & X3). rewrite KK, NC in *.
    destruct (le_lt_dec k s0) as [ Q | Q ]; [ exact Q | ]. exfalso.
    assert (s0 = (k - 1)%nat) by lia. subst s0. replace (k - 1 + 1)%nat with k in X3 by lia.
    destruct X3 as [ X3 | X3 ]; [ lra | ].
    assert (last_time k l = knot l k) by (unfold last_time; f_equal; lia). lra. }
  destruct (located_exists (cv sv) u W ltac:(rewrite T1, T2; lra)) as (s & LO). pose proof (SEG u s BUF LO) as SS.
  assert (S3 := proj1 LO). rewrite O, NC in S3.
  destruct (C65_jacobian k l 6 C c (cv sv) 0 u BU ND LE ltac:(lra) ltac:(lia) ltac:(lia)) as (v & js & idx & _ & EJ & _).
  destruct (C65_jacobian k l 6 C c (cv sv) 1 u BU ND LE ltac:(lra) ltac:(lia) ltac:(lia)) as (v1 & _ & _ & _ & _ & EV1 & _).
  unfold time_node_J, in_buffer. rewrite rleb_true, rltb_true by lra. cbn [andb].
  unfold time_parts. rewrite (located_vv _ _ _ W LO), O, EJ. cbn [obind]. unfold curve_to_T_J. rewrite EV1. cbn [obind].
  destruct k as [ | k ]; [ lia | ]. cbn [seq]. change (?a :: seq (S ?a) k) with (seq a (S k)). rewrite last_seq by lia. cbn [obind].
  rewrite LI, plain_loop_bad; [ reflexivity | lia | rewrite (al_len _ A), NC; lia | lia | lia | lia ].
Qed.
Print Assumptions C73_plain_refuted.

(** The indices are not moved when a segment is removed: afterwards the
    expression lacks a variable its value depends on. *)
Theorem C73_remove_refuted : forall k l C c sv sv' t j, reachable sv -> built k l 6 C c (cv sv) -> nondecreasing l -> long_end k l ->
  (k <= j)%nat -> (j + 1 < C)%nat -> knot l j <= t < knot l (j + 1) -> remove_seg sv = Ok sv' ->
  exists n ids us id, make_time_node sv t 0 0 = Ok n /\ time_node_variables sv' n = Ok ids /\
    variables_at sv' t = Ok us /\ In id us /\ ~ In id ids.
Proof.
  intros k l C c sv sv' t j RE BU ND LE J1 J2 J3 ER. pose proof (reachable_aligned sv RE) as A.
  destruct (built_wf _ _ _ _ _ _ BU ND) as [W [O [KK [DD [NC [CO [K2 [CC LL]]]]]]]].
  destruct (built_times _ _ _ _ _ _ BU ND) as [T1 [T2 T3]].
  assert (IT : knot l k <= t <= last_time k l).
  { assert (knot l k <= knot l j) by (apply ND; lia). assert (knot l (j + 1) <= knot l C) by (apply ND; lia).
    assert (last_time k l = knot l C) by (unfold last_time; f_equal; lia). lra. }
  assert (KF : first_time k l <= knot l k) by (unfold first_time; apply ND; lia).
  destruct (make_time_node_spec sv k l 6 C c t 0 0 BU ND LE ltac:(lra) ltac:(lra) ltac:(lra))
    as (n & sl & sr & EN & LI & S1 & S2 & B1 & B2 & B3 & SEG & LEFT & RIGHT).
  assert (LO : located (cv sv) t j).
  { apply located_span; [ exact W | rewrite T2, T3; unfold long_end in LE; lra | rewrite O, NC; lia | rewrite KK; exact J3 ]. }
  replace (t - 0) with t in LEFT by ring. replace (t + 0) with t in RIGHT by ring.
  pose proof (LEFT j LO ltac:(rewrite T1; lra)) as ->. pose proof (RIGHT j LO ltac:(rewrite T2; lra)) as ->.
  destruct (remove_spec sv sv' A ER) as (A' & CV & FR & MM & N1).
  replace (j - j + k)%nat with k in LI by lia.
  exists n, (map (ido sv') (seq (j + 1 - k) k)), (map (ido sv) (seq (j + 1 - k) k)), (ido sv (j + 1 - k)).
  split; [ exact EN | ].
  split. { unfold time_node_variables. rewrite LI. apply variables_of_seq. rewrite (al_len _ A'). lia. }
  split. { rewrite (proj1 (C72_kept_remove k l 6 C c sv sv' RE BU ND ltac:(lia) ER) t IT).
    unfold variables_at. rewrite (located_vv _ _ _ W LO), O. cbn [obind]. apply pick_seq. rewrite (al_len _ A), NC. lia. }
  split. { apply in_map, in_seq. lia. }
  intros Hin. apply in_map_iff in Hin. destruct Hin as (m & E & Hm). apply in_seq in Hm.
  assert (D1 := dv_ido sv' m ltac:(rewrite (al_len _ A'); lia)).
  rewrite (proj1 (proj2 (proj2 (C72_segments sv RE) sv' ER)) m), E in D1.
  assert (D2 := dv_ido sv (j + 1 - k) ltac:(rewrite (al_len _ A), NC; lia)).
  pose proof (proj2 (proj2 (C72_variables sv RE)) _ _ _ D1 D2). lia.
Qed.
Print Assumptions C73_remove_refuted.

(** ** The hypotheses are met *)
Definition still : nat -> nat -> R := fun _ _ => 0.
Lemma still_built : exists b, built 2 knots6 6 4 still b.
Proof.
  destruct (C64_set_knots new2 knots6 6 4 still) as [H _];
    [ cbn [order new2]; lia | cbn [knots new2 length]; lia | exact knots6_nd | ].
  destruct H as [b [E _]]; [ cbn; lia | cbn; lia | ]. exists b.
  exists new2. split; [ reflexivity | ]. split; [ lia | ]. split; [ cbn; lia | exact E ].
Qed.

Example C73_ex : exists b n, built 3 knots6 6 3 half_turn (cv (create b)) /\ reachable (create b) /\ long_end 3 knots6 /\
  make_time_node (create b) (5 / 2) (1 / 4) (1 / 4) = Ok n /\ hd 0%nat (local_idx n) = 0%nat /\ buf_lo n < 5 / 2 < buf_hi n /\
  smooth_at 3 knots6 3 (5 / 2) /\ rotation_ok (fun _ => True) (cv (create b)) (5 / 2) /\
  moving_vars (create b) push_rate (fun s => Spl (pushed b s) (vars (create b)) (fresh (create b))) /\
  moving_time (fun s => 5 / 2 + s) (5 / 2) 1.
Proof.
  destruct half_turn_built as (b & H). destruct knots6_times as (T1 & T2 & T3 & LE).
  destruct (make_time_node_spec (create b) 3 knots6 6 3 half_turn (5 / 2) (1 / 4) (1 / 4) H knots6_nd LE ltac:(lra) ltac:(lra) ltac:(lra))
    as (n & sl & sr & EN & LI & S1 & S2 & B1 & B2 & B3 & _).
  exists b, n. split; [ exact H | ]. split; [ exists b, []; reflexivity | ]. split; [ exact LE | ]. split; [ exact EN | ].
  split. { rewrite LI. replace sl with 2%nat by lia. replace sr with 2%nat by lia. reflexivity. }
  split. { split; [ | destruct B3 as [ B3 | -> ]; lra ]. eapply Rle_lt_trans; [ exact (proj2 B1) | ]. apply Rmax_lub_lt; lra. }
  split. { left. exists 2%nat. split; [ lia | ]. unfold knot, knots6. cbn [nth Nat.add]. lra. }
  split; [ intros v _; exact Logic.I | ]. split; [ exact (proj1 (pushed_moving b H)) | ].
  split; [ lra | ]. auto_derive; [ exact Logic.I | ring ].
Qed.

Example C73_ex_far : exists b n sv', built 2 knots6 6 4 still (cv (create b)) /\ reachable (create b) /\ long_end 2 knots6 /\
  make_time_node (create b) (5 / 2) 0 0 = Ok n /\ knot knots6 2 <= 5 / 2 - 0 < last_time 2 knots6 /\ buf_lo n <= 5 / 2 < buf_hi n /\
  (2 <= 2 /\ 2 + 1 < 4)%nat /\ knot knots6 2 <= 5 / 2 < knot knots6 (2 + 1) /\ remove_seg (create b) = Ok sv'.
Proof.
  destruct still_built as (b & H).
  assert (T1 : first_time 2 knots6 = 1) by reflexivity. assert (T2 : last_time 2 knots6 = 4) by reflexivity.
  assert (T3 : last_knot 2 knots6 = 3) by reflexivity. assert (LE : long_end 2 knots6) by (unfold long_end; rewrite T2, T3; lra).
  destruct (built_wf _ _ _ _ _ _ H knots6_nd) as [W [O [K [DD [NC [CO _]]]]]].
  destruct (make_time_node_spec (create b) 2 knots6 6 4 still (5 / 2) 0 0 H knots6_nd LE ltac:(lra) ltac:(lra) ltac:(lra))
    as (n & sl & sr & EN & LI & S1 & S2 & B1 & B2 & B3 & _).
  exists b, n. eexists. split; [ exact H | ]. split; [ exists b, []; reflexivity | ]. split; [ exact LE | ]. split; [ exact EN | ].
  split. { rewrite T2. unfold knot, knots6. cbn [nth]. lra. }
  split. { split; [ | destruct B3 as [ B3 | -> ]; lra ]. eapply Rle_trans; [ exact (proj2 B1) | ]. apply Rmax_lub; lra. }
  split; [ lia | ]. split. { unfold knot, knots6. cbn [nth Nat.add]. lra. }
  unfold remove_seg. cbn [create cv vars]. unfold remove_segment. rewrite K, NC. unfold knots6. cbn. reflexivity.
Qed.
