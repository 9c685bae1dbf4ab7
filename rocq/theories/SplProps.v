(** * C72: spline design variables and their expressions *)
From Coquelicot Require Import Coquelicot.
From Coq Require Import Reals List Arith ZArith Bool Lia Lra.
From Verif Require Import Base KinModel KinSpec KinProofs KinCurve RotModel RotSpec TfModel TfSpec TfProofs
  BsplModel BsplSpec BsplProofs BsdProofs BsplProps BsdProps BshModel BsfProps BsfProofs BshProofs BshProps
  BpModel BpSpec BpProofs BpProps SplModel SplSpec SplProofs.
Import ListNotations.
Local Open Scope R_scope.

(** In every reachable state there is exactly one variable per coefficient
    vector; the variable with index i has the value of coefficient i, and
    different indices are different objects. *)
Theorem C72_variables : forall sv, reachable sv ->
  (forall i, (i < ncols (cv sv))%nat -> exists id, design_variable sv i = Ok id /\ value_of sv id = Ok (col (cv sv) i)) /\
  (forall i, (ncols (cv sv) <= i)%nat -> design_variable sv i = Throw) /\
  (forall i j id, design_variable sv i = Ok id -> design_variable sv j = Ok id -> i = j).
Proof.
  intros sv RE. pose proof (reachable_aligned sv RE) as A. split; [ | split ].
  - intros i L. destruct (aligned_var sv i A L) as (v & E & DV & OB & MC). exists (mid v). split; [ exact DV | ].
    unfold value_of. rewrite OB. cbn [obind]. rewrite MC. reflexivity.
  - intros i L. unfold design_variable. rewrite <- (al_len _ A) in L. apply nth_error_None in L. rewrite L. reflexivity.
  - intros i j id E1 E2. destruct (design_var_inv _ _ _ A E1) as (v & _ & _ & O1 & C1 & _).
    destruct (design_var_inv _ _ _ A E2) as (w & _ & _ & O2 & C2 & _). assert (v = w) by congruence. subst w. congruence.
Qed.
Print Assumptions C72_variables.

(** An update adds the step to exactly its own coefficient vector, setting the
    parameters replaces it, and a revert right after either restores all the
    coefficients. *)
Theorem C72_update : forall sv i id dp x, reachable sv -> design_variable sv i = Ok id ->
  exists sv1 sv2 sv3 sv4, update sv id dp = Ok sv1 /\ revert sv1 id = Ok sv2 /\
    set_parameters sv id x = Ok sv3 /\ revert sv3 id = Ok sv4 /\
    (forall r j, coef (cv sv1) r j = if (j =? i)%nat then coef (cv sv) r j + dp r else coef (cv sv) r j) /\
    (forall r j, coef (cv sv3) r j = if (j =? i)%nat then x r else coef (cv sv) r j) /\
    (forall r j, coef (cv sv2) r j = coef (cv sv) r j) /\ (forall r j, coef (cv sv4) r j = coef (cv sv) r j) /\
    (forall s, In s [sv1; sv2; sv3; sv4] -> knots (cv s) = knots (cv sv) /\ order (cv s) = order (cv sv) /\
      forall m, design_variable s m = design_variable sv m).
Proof.
  intros sv i id dp x RE DV. pose proof (reachable_aligned sv RE) as A.
  destruct (design_var_inv _ _ _ A DV) as (v & NV & -> & OB & MC & L).
  assert (OB' : forall b p, object (Spl b (with_prev sv (mid v) p) (fresh sv)) (mid v) = Ok (Mapped (mid v) i p)).
  { intros b p. unfold object. cbn [vars].
    assert (N : nth_error (with_prev sv (mid v) p) i = Some (Mapped (mid v) i p)).
    { unfold with_prev. rewrite nth_error_map, NV. cbn [option_map]. rewrite Nat.eqb_refl, MC. reflexivity. }
    assert (D : NoDup (map mid (with_prev sv (mid v) p))) by (rewrite with_prev_mid; exact (al_dup _ A)).
    pose proof (find_nth _ D _ _ N) as F. cbn [mid] in F. rewrite F. reflexivity. }
  unfold update, set_parameters. rewrite OB. cbn [obind]. cbv zeta. rewrite MC.
  do 4 eexists. split; [ reflexivity | ]. split; [ unfold revert; rewrite OB'; cbn [obind mcol mprev cv vars fresh]; reflexivity | ].
  split; [ reflexivity | ]. split; [ unfold revert; rewrite OB'; cbn [obind mcol mprev cv vars fresh]; reflexivity | ].
  cbn [cv put_col coef]. unfold col.
  split. { intros r j. destruct (Nat.eqb_spec j i); [ subst; reflexivity | reflexivity ]. }
  split. { intros r j. destruct (Nat.eqb_spec j i); reflexivity. }
  split. { intros r j. destruct (Nat.eqb_spec j i); [ subst; reflexivity | reflexivity ]. }
  split. { intros r j. destruct (Nat.eqb_spec j i); [ subst; reflexivity | reflexivity ]. }
  intros s Hs. assert (DS : forall b p m, design_variable (Spl b (with_prev sv (mid v) p) (fresh sv)) m = design_variable sv m).
  { intros b p m. unfold design_variable. cbn [vars]. unfold with_prev. rewrite nth_error_map.
    destruct (nth_error (vars sv) m) as [ w | ]; [ | reflexivity ]. cbn [option_map]. destruct (mid w =? mid v)%nat; reflexivity. }
  destruct Hs as [ <- | [ <- | [ <- | [ <- | [] ] ] ] ]; (split; [ reflexivity | split; [ reflexivity | intros m; apply DS ] ]).
Qed.
Print Assumptions C72_update.

(** Adding a segment keeps every existing variable at its index and adds one
    new object for the new coefficient; removing the first segment destroys the
    first variable and moves every other down by one. *)
Theorem C72_segments : forall sv, reachable sv ->
  (forall solve junk t n p sv', add_seg solve junk sv t n p = Ok sv' ->
     ncols (cv sv') = S (ncols (cv sv)) /\
     (forall i, (i < ncols (cv sv))%nat -> design_variable sv' i = design_variable sv i) /\
     exists id, design_variable sv' (ncols (cv sv)) = Ok id /\ forall i, design_variable sv i <> Ok id) /\
  (forall sv', remove_seg sv = Ok sv' ->
     ncols (cv sv) = S (ncols (cv sv')) /\ (forall i, design_variable sv' i = design_variable sv (S i)) /\
     forall id, design_variable sv 0 = Ok id -> value_of sv' id = UB).
Proof.
  intros sv RE. pose proof (reachable_aligned sv RE) as A.
  assert (DM : forall s m, design_variable s m = match nth_error (map mid (vars s)) m with Some x => Ok x | None => Throw end).
  { intros s m. unfold design_variable. rewrite nth_error_map. destruct (nth_error (vars s) m); reflexivity. }
  split.
  - intros solve junk t n p sv' E. unfold add_seg in E.
    destruct (add_segment solve junk (cv sv) t n p) as [ b' | | | ] eqn:EA; cbn [obind] in E; try discriminate.
    pose proof (add_segment_ncols _ _ _ _ _ _ _ EA) as NC.
    destruct (added_spec sv b' A NC) as (s & Es & As & CV & FR & MM & _).
    assert (s = sv') by congruence. subst s. rewrite CV.
    assert (LM : length (map mid (vars sv)) = ncols (cv sv)) by (rewrite map_length; exact (al_len _ A)).
    split; [ lia | ]. split.
    + intros i L. rewrite !DM, MM. rewrite nth_error_app1 by lia. reflexivity.
    + exists (fresh sv). split.
      * rewrite DM, MM. rewrite nth_error_app2 by lia. rewrite LM, Nat.sub_diag. reflexivity.
      * intros i E2. destruct (design_var_inv _ _ _ A E2) as (v & NV & EI & _).
        pose proof (al_fresh _ A v (nth_error_In _ _ NV)). lia.
  - intros sv' E. destruct (remove_spec sv sv' A E) as (A' & CV & FR & MM & NC).
    split; [ exact NC | ]. split.
    + intros i. rewrite !DM, MM. destruct (map mid (vars sv)); [ destruct i; reflexivity | reflexivity ].
    + intros id E0. destruct (design_var_inv _ _ _ A E0) as (v & NV & EI & _). subst id. unfold value_of, object.
      destruct (find (fun w => (mid w =? mid v)%nat) (vars sv')) as [ w | ] eqn:EF; [ | reflexivity ].
      exfalso. apply find_some in EF. destruct EF as (Hw & EQ). apply Nat.eqb_eq in EQ.
      apply (in_map mid) in Hw. rewrite MM, EQ in Hw. pose proof (al_dup _ A) as D.
      destruct (vars sv) as [ | v0 rr ]; [ discriminate NV | ]. cbn [nth_error] in NV. injection NV as ->.
      cbn [map tl] in *. inversion D. contradiction.
Qed.
Print Assumptions C72_segments.

(** ** Expressions *)

(** An expression can be made at every time of the curve; it names one variable
    per coefficient of the segment. *)
Theorem C72_make : forall sv k l D C c t, (1 <= D)%nat -> reachable sv -> built k l D C c (cv sv) -> nondecreasing l ->
  long_end k l -> first_time k l <= t <= last_time k l ->
  exists n, make_node sv t = Ok n /\ ntime n = t /\ length (node_variables n) = k /\ NoDup (node_variables n) /\
    variables_at sv t = Ok (nvars n).
Proof.
  intros sv k l D C c t D1 RE BU ND LE I. pose proof (reachable_aligned sv RE) as A.
  destruct (built_wf _ _ _ _ _ _ BU ND) as [W [O [K [DD [NC [CO [K2 [CC LL]]]]]]]].
  destruct (C65_jacobian k l D C c (cv sv) 0 t BU ND LE I ltac:(lia) D1) as (v & J & idx & lc & _ & _ & _ & EI & LI & BI & _).
  destruct (indices_both _ _ _ EI) as (f & IX & EV). rewrite O, DD in IX. rewrite O in EV.
  assert (FB : (f + k <= C)%nat).
  { assert (X : (f * D + (k * D - 1) < D * C)%nat).
    { apply BI. rewrite IX. apply in_seq. assert (1 <= k * D)%nat by nia. lia. }
    nia. }
  destruct (pick_spec (vars sv) (seq f k)) as (ids & EP & LP & NP).
  { intros i Hi. apply in_seq in Hi. rewrite (al_len _ A), NC. lia. }
  exists (Node t ids). unfold make_node, variables_at, node_variables. rewrite EV. cbn [obind]. rewrite EP. cbn [obind nvars ntime].
  rewrite seq_length in LP, NP. split; [ reflexivity | ]. split; [ reflexivity | ]. split; [ exact LP | ]. split; [ | reflexivity ].
  apply (NoDup_nth _ 0%nat). intros i j Li Lj E. rewrite LP in Li, Lj.
  destruct (NP i Li) as (v1 & E1 & M1). destruct (NP j Lj) as (v2 & E2 & M2). rewrite seq_nth in E1, E2 by assumption.
  rewrite M1, M2 in E. pose proof (object_at sv _ _ A E1) as O1. pose proof (object_at sv _ _ A E2) as O2.
  rewrite E in O1. assert (v1 = v2) by congruence. subst v2.
  pose proof (al_col _ A _ _ E1). pose proof (al_col _ A _ _ E2). lia.
Qed.
Print Assumptions C72_make.

(** Jacobians of the pose expressions: for every motion of the variables the
    blocks times the rates add up to the motion of the value.  With the chain
    rule, to the given matrix times it. *)
Theorem C72_pose_nodes : forall K dom k l C c sv n rate svs, parametrises K dom -> reachable sv ->
  built k l 6 C c (cv sv) -> nondecreasing l -> long_end k l -> first_time k l <= ntime n <= last_time k l ->
  variables_at sv (ntime n) = Ok (nvars n) -> rotation_ok dom (cv sv) (ntime n) -> moving_vars sv rate svs ->
  exists (M : R -> m4) (Q : R -> m3) ET ER,
    (forall s, transformation_node K (svs s) n = Ok (M s) /\ rotation_node K (svs s) n = Ok (Q s)) /\
    transformation_node K sv n = Ok (M 0) /\ rotation_node K sv n = Ok (Q 0) /\
    transformation_node_J K sv n = Ok ET /\ map fst ET = nvars n /\ perturbed M 0 (applied6 ET rate) /\
    rotation_node_J K sv n = Ok ER /\ map fst ER = nvars n /\
    (exists Qd, m3_derive Q 0 Qd /\ angular_velocity (Q 0) Qd (applied3 (fun x => x) ER rate)) /\
    (forall A, exists EC, transformation_node_chain K sv n A = Ok EC /\ forall r,
       applied 6 (fun x => x r) EC rate = v3_dot (hd3 (A r)) (hd3 (applied6 ET rate)) + v3_dot (tl3 (A r)) (tl3 (applied6 ET rate))) /\
    (forall A r, applied 6 (fun x => x r) (three_chain A ER) rate = v3_dot (A r) (applied3 (fun x => x) ER rate)).
Proof.
  intros K dom k l C c sv n rate svs PK RE BU ND LE I FT RO (y & yd & bs & MV & SV & RT).
  pose proof (reachable_aligned sv RE) as A.
  destruct (built_wf _ _ _ _ _ _ BU ND) as [W [O [KK [DD [NC [CO [K2 [CC LL]]]]]]]]. rewrite DD, NC in MV.
  destruct (C69_pose_jacobians K dom k l C c (cv sv) (ntime n) y yd bs PK BU ND LE I RO MV)
    as (idx & M & Mi & Q & Qi & J & Ji & Jq & Jqi & VA & EJ & PM & _ & _ & _ & EQ & PQ & _).
  destruct (node_blocks sv n k l 6 C c rate y yd bs svs ltac:(lia) A BU ND LE I FT MV SV RT J) as (i1 & EI1 & B1 & S1).
  destruct (node_blocks sv n k l 6 C c rate y yd bs svs ltac:(lia) A BU ND LE I FT MV SV RT Jq) as (i2 & EI2 & B2 & S2).
  assert (i1 = idx).
  { unfold transformation_J in EJ. destruct (C65_jacobian k l 6 C c (cv sv) 0 (ntime n) BU ND LE I ltac:(lia) ltac:(lia)) as (v & JJ & ix & lc & E & _ & _ & EI & _).
    rewrite E in EJ. cbn [obind curve_to_T_J] in EJ. assert (ix = idx) by (injection EJ; auto). congruence. }
  assert (i2 = i1) by congruence. subst i2. subst i1.
  assert (FST : forall (X : Type) (JJ : nat -> X), map fst (blocks 6 JJ (nvars n)) = nvars n).
  { intros X JJ. unfold blocks. rewrite map_map. cbn [fst]. generalize (nvars n), 0%nat. clear.
    induction l as [ | a r IH ]; intros m; [ reflexivity | ]. cbn [length seq combine map snd]. rewrite IH. reflexivity. }
  exists M, Q, (blocks 6 J (nvars n)), (blocks 6 Jq (nvars n)).
  assert (AT : applied6 (blocks 6 J (nvars n)) rate = times6 (k * 6) J (picked yd idx)).
  { unfold applied6, applied3, times6, times3. rewrite !S1. reflexivity. }
  assert (AR : applied3 (fun x => x) (blocks 6 Jq (nvars n)) rate = times3 (k * 6) Jq (picked yd idx)).
  { unfold applied3, times3. rewrite !S2. reflexivity. }
  assert (ET : transformation_node_J K sv n = Ok (blocks 6 J (nvars n))).
  { unfold transformation_node_J. rewrite EJ. cbn [obind]. unfold pose_blocks. rewrite O. exact B1. }
  split. { intros s. rewrite SV. unfold transformation_node, rotation_node. cbn [cv]. destruct (VA s) as (V1 & _ & V2 & _). split; assumption. }
  split; [ exact (transformation_value _ _ _ _ _ _ EJ) | ]. split; [ exact (orientation_value _ _ _ _ _ _ EQ) | ].
  split; [ exact ET | ]. split; [ apply FST | ]. split; [ rewrite AT; exact PM | ].
  split. { unfold rotation_node_J. rewrite EQ. cbn [obind]. unfold pose_blocks. rewrite O. exact B2. }
  split; [ apply FST | ]. split; [ rewrite AR; exact PQ | ].
  split; [ | intros B r; apply chain3_applied ].
  intros B. unfold transformation_node_chain. rewrite ET. cbn [obind]. eexists. split; [ reflexivity | ].
  intros r. apply chain6_applied.
Qed.
Print Assumptions C72_pose_nodes.

(** Jacobians of the velocity and acceleration expressions (order [d]; position
    is order 0) and of the angular rates in the body frame. *)
Theorem C72_rate_nodes : forall K dom k l C c sv n rate svs d, parametrises K dom -> reachable sv ->
  built k l 6 C c (cv sv) -> nondecreasing l -> long_end k l -> first_time k l <= ntime n <= last_time k l ->
  variables_at sv (ntime n) = Ok (nvars n) -> rotation_ok dom (cv sv) (ntime n) -> moving_vars sv rate svs -> (0 <= d)%Z ->
  exists (P W : R -> v3) EP EW,
    (forall s, linear_node d (svs s) n = Ok (P s) /\ angular_node d K (svs s) n = Ok (W s)) /\
    linear_node d sv n = Ok (P 0) /\ angular_node d K sv n = Ok (W 0) /\
    linear_node_J d sv n = Ok EP /\ v3_derive P 0 (applied3 (fun x => x) EP rate) /\
    angular_node_J d K sv n = Ok (Some EW) /\ v3_derive W 0 (applied3 (fun x => x) EW rate) /\
    forall A r, applied 6 (fun x => x r) (three_chain A EP) rate = v3_dot (A r) (applied3 (fun x => x) EP rate) /\
                applied 6 (fun x => x r) (three_chain A EW) rate = v3_dot (A r) (applied3 (fun x => x) EW rate).
Proof.
  intros K dom k l C c sv n rate svs d PK RE BU ND LE I FT RO (y & yd & bs & MV & SV & RT) PD.
  pose proof (reachable_aligned sv RE) as A.
  destruct (built_wf _ _ _ _ _ _ BU ND) as [W0 [O [KK [DD [NC [CO [K2 [CC LL]]]]]]]]. rewrite DD, NC in MV.
  destruct (C69_rate_jacobians K dom k l C c (cv sv) (ntime n) d y yd bs PK BU ND LE I RO MV PD)
    as (idx & W & J & Wb & Jb & A' & Ja & VA & _ & _ & EB & EJ & PB & _).
  destruct (curve_moves k l C c (cv sv) d (ntime n) y yd bs BU ND LE I PD MV)
    as (v & js & ix & V & EVJ & EV & EI & ES & V0 & V0' & DH & DT).
  destruct (node_blocks sv n k l 6 C c rate y yd bs svs ltac:(lia) A BU ND LE I FT MV SV RT Jb) as (i1 & EI1 & B1 & S1).
  destruct (node_blocks sv n k l 6 C c rate y yd bs svs ltac:(lia) A BU ND LE I FT MV SV RT (fun m => hd3 (column js m))) as (i2 & EI2 & B2 & S2).
  assert (i1 = ix) by congruence. assert (i2 = ix) by congruence. subst i1 i2.
  assert (idx = ix).
  { unfold angular_rate_body_J in EJ. destruct (eval_D_and_jacobian (cv sv) (ntime n) 0) as [ [[p jp] ip] | | | ]; cbn [obind] in EJ; try discriminate.
    rewrite EVJ in EJ. cbn [obind] in EJ.
    destruct (inverse_orientation_J K (cv sv) (ntime n)) as [ [[q jq] iq] | | | ]; cbn [obind] in EJ; try discriminate.
    symmetry. injection EJ; auto. }
  subst idx.
  exists (fun s => head3 (V s)), Wb, (blocks 6 (fun m => hd3 (column js m)) (nvars n)), (blocks 6 Jb (nvars n)).
  split. { intros s. rewrite SV. unfold linear_node, angular_node. cbn [cv]. rewrite ES. cbn [obind]. split; [ reflexivity | apply (VA s) ]. }
  split. { unfold linear_node. rewrite EV. cbn [obind]. rewrite V0. reflexivity. }
  split; [ exact EB | ].
  split. { unfold linear_node_J. rewrite EVJ. cbn [obind]. unfold pose_blocks. rewrite O. exact B2. }
  split. { apply (v3_derive_eq _ _ _ _ DH). unfold applied3, times6, times3. cbn [hd3]. rewrite !S2. reflexivity. }
  split. { unfold angular_node_J. rewrite EJ. cbn [obind]. unfold pose_blocks. rewrite O, B1. reflexivity. }
  split. { apply (v3_derive_eq _ _ _ _ PB). unfold applied3, times3. rewrite !S1. reflexivity. }
  intros B r. split; apply chain3_applied.
Qed.
Print Assumptions C72_rate_nodes.

(** Vector expressions of any dimension and derivative order, with and without
    the chain rule. *)
Theorem C72_vector_nodes : forall k l D C c sv n rate svs d, (1 <= D)%nat -> reachable sv ->
  built k l D C c (cv sv) -> nondecreasing l -> long_end k l -> first_time k l <= ntime n <= last_time k l ->
  variables_at sv (ntime n) = Ok (nvars n) -> moving_vars sv rate svs -> (0 <= d)%Z ->
  exists (V : R -> vec) v E,
    (forall s, vector_node d (svs s) n = Ok (V s)) /\ vector_node d sv n = Ok v /\ vector_node_J d sv n = Ok E /\
    map fst E = nvars n /\
    (forall r, (r < D)%nat -> V 0 r = v r /\ is_derive (fun s => V s r) 0 (applied D (fun x => x r) E rate)) /\
    forall A, exists EC, vector_node_chain d sv n A = Ok EC /\
      forall r, applied D (fun x => x r) EC rate = total D (fun i => A r i * applied D (fun x => x i) E rate).
Proof.
  intros k l D C c sv n rate svs d D1 RE BU ND LE I FT (y & yd & bs & MV & SV & RT) PD.
  pose proof (reachable_aligned sv RE) as A.
  destruct (built_wf _ _ _ _ _ _ BU ND) as [W0 [O [KK [DD [NC [CO [K2 [CC LL]]]]]]]]. rewrite DD, NC in MV.
  destruct (curve_moves_D k l D C c (cv sv) d (ntime n) y yd bs D1 BU ND LE I PD MV)
    as (v & js & ix & V & EVJ & EV & EI & BI & ES & V0 & DV).
  destruct (node_blocks sv n k l D C c rate y yd bs svs D1 A BU ND LE I FT MV SV RT (fun m r => js r m)) as (i1 & EI1 & B1 & S1).
  assert (i1 = ix) by congruence. subst i1.
  assert (EE : vector_node_J d sv n = Ok (blocks D (fun m r => js r m) (nvars n))).
  { unfold vector_node_J. rewrite EVJ. cbn [obind]. rewrite O, DD. exact B1. }
  exists V, v, (blocks D (fun m r => js r m) (nvars n)).
  split. { intros s. rewrite SV. unfold vector_node. cbn [cv]. apply ES. }
  split; [ exact EV | ]. split; [ exact EE | ].
  split. { unfold blocks. rewrite map_map. cbn [fst]. generalize (nvars n), 0%nat. clear.
    induction l as [ | a r IH ]; intros m; [ reflexivity | ]. cbn [length seq combine map snd]. rewrite IH. reflexivity. }
  split. { intros r Lr. split; [ apply V0; exact Lr | ]. rewrite (S1 (fun x => x r)). apply DV. exact Lr. }
  intros B. unfold vector_node_chain. rewrite EE. cbn [obind]. eexists. split; [ reflexivity | ].
  intros r. rewrite applied_chained, DD. rewrite (applied_sum D D (fun i => B r i) (fun x i => x i)). apply bsum_total.
Qed.
Print Assumptions C72_vector_nodes.

(** ** Expressions and a changing curve *)

Lemma pick_mids vs : forall idx vs', map mid vs' = map mid vs -> pick vs' idx = pick vs idx.
Proof.
  induction idx as [ | i r IH ]; intros vs' M; [ reflexivity | ]. cbn [pick].
  assert (N : option_map mid (nth_error vs' i) = option_map mid (nth_error vs i)) by (rewrite <- !nth_error_map, M; reflexivity).
  destruct (nth_error vs' i), (nth_error vs i); cbn [option_map] in N; try discriminate; [ | reflexivity ].
  rewrite (IH _ M). injection N as N. rewrite N. reflexivity.
Qed.
Lemma pick_app vs : forall idx vs' x, map mid vs' = map mid vs ++ x -> (forall i, In i idx -> (i < length vs)%nat) -> pick vs' idx = pick vs idx.
Proof.
  induction idx as [ | i r IH ]; intros vs' x M L; [ reflexivity | ]. cbn [pick].
  assert (N : option_map mid (nth_error vs' i) = option_map mid (nth_error vs i)).
  { rewrite <- !nth_error_map, M. apply nth_error_app1. rewrite map_length. apply L. left. reflexivity. }
  destruct (nth_error vs' i), (nth_error vs i); cbn [option_map] in N; try discriminate; [ | reflexivity ].
  rewrite (IH _ _ M) by (intros j Hj; apply L; right; exact Hj). injection N as N. rewrite N. reflexivity.
Qed.
Lemma pick_tl vs vs' : map mid vs' = tl (map mid vs) -> forall n f, pick vs' (seq f n) = pick vs (seq (S f) n).
Proof.
  intros M. induction n as [ | n IH ]; intros f; [ reflexivity | ]. cbn [seq pick].
  assert (N : option_map mid (nth_error vs' f) = option_map mid (nth_error vs (S f))).
  { rewrite <- !nth_error_map, M. destruct (map mid vs); [ destruct f; reflexivity | reflexivity ]. }
  destruct (nth_error vs' f), (nth_error vs (S f)); cbn [option_map] in N; try discriminate; [ | reflexivity ].
  rewrite IH. injection N as N. rewrite N. reflexivity.
Qed.
Lemma located_vv b t s : wf b -> located b t s -> local_vv_indices b t = Ok (seq (s + 1 - order b) (order b)).
Proof.
  intros W (S1 & E). unfold local_vv_indices. rewrite E. cbn [obind]. rewrite isub_ok by lia. reflexivity.
Qed.

(** Changing values never changes which variables an expression uses, and an
    expression made before keeps fitting. *)
Theorem C72_kept : forall sv sv' o t, step sv o = Ok sv' ->
  match o with Update _ _ | Revert _ | SetParameters _ _ => True | _ => False end ->
  variables_at sv' t = variables_at sv t.
Proof.
  intros sv sv' o t E T. destruct o as [ id dp | id | id x | | | ]; try contradiction; cbn [step] in E.
  - unfold update in E. destruct (object sv id) as [ v | | | ]; cbn [obind] in E; try discriminate. injection E as <-.
    unfold variables_at. cbn [cv vars]. change (local_vv_indices (put_col ?b ?i ?v) t) with (local_vv_indices b t).
    destruct (local_vv_indices (cv sv) t) as [ idx | | | ]; cbn [obind]; try reflexivity. apply pick_mids, with_prev_mid.
  - unfold revert in E. destruct (object sv id) as [ v | | | ]; cbn [obind] in E; try discriminate. injection E as <-. reflexivity.
  - unfold set_parameters in E. destruct (object sv id) as [ v | | | ]; cbn [obind] in E; try discriminate. injection E as <-.
    unfold variables_at. cbn [cv vars]. change (local_vv_indices (put_col ?b ?i ?v) t) with (local_vv_indices b t).
    destruct (local_vv_indices (cv sv) t) as [ idx | | | ]; cbn [obind]; try reflexivity. apply pick_mids, with_prev_mid.
Qed.
Print Assumptions C72_kept.

(** Adding a segment keeps the variables of every time before the old end.  At
    the old end itself it does not: an expression made there lacks the new
    variable although the value now depends on the later coefficients. *)
Theorem C72_kept_add : forall solve junk k l D C c sv t1 p, solver_ok solve -> reachable sv ->
  built k l D C c (cv sv) -> nondecreasing l -> long_end k l -> last_time k l + / 10000000000 <= t1 ->
  exists sv', add_seg solve junk sv t1 D p = Ok sv' /\
    (forall t, first_time k l <= t <= last_time k l - / 10000000000 -> variables_at sv' t = variables_at sv t) /\
    exists n ids id, make_node sv (last_time k l) = Ok n /\ variables_at sv' (last_time k l) = Ok ids /\
      In id ids /\ ~ In id (node_variables n).
Proof.
  intros solve junk k l D C c sv t1 p SO RE H ND LE T1. pose proof (reachable_aligned sv RE) as A. unfold long_end in LE.
  destruct (C68_add solve junk k l D C c (cv sv) t1 p SO H ND ltac:(lra) ltac:(lra))
    as [b' [l' [c' [v [v0 [v1 [E [BU [ND' [LEN [KK [CK [F1 [F2 [F3 _]]]]]]]]]]]]]]].
  destruct (built_wf _ _ _ _ _ _ H ND) as [W [O [K [DD [NC [CO [K2 [CC LL]]]]]]]].
  destruct (built_times _ _ _ _ _ _ H ND) as [U1 [U2 U3]].
  destruct (built_wf _ _ _ _ _ _ BU ND') as [W' [O' [K' [_ [NC' _]]]]].
  destruct (built_times _ _ _ _ _ _ BU ND') as [V1 [V2 V3]].
  destruct (added_spec sv b' A ltac:(lia)) as (sv' & Es & As & CV & FR & MM & _).
  exists sv'. split; [ unfold add_seg; rewrite E; exact Es | ]. split.
  - intros t I.
    destruct (located_seg (cv sv) t W) as [s [LO S2]]; [ rewrite U1, U2; lra | unfold resolved; left; rewrite U2; lra | ].
    assert (S1 := proj1 LO). rewrite K in S2. rewrite O, NC in S1.
    assert (LO' : located b' t s).
    { apply (located_in k l' D (C + 1) c' b' t s BU ND').
      - unfold clear_of_end. rewrite F2. left. lra.
      - rewrite F1, F2. lra.
      - lia.
      - rewrite !KK by lia. exact S2. }
    unfold variables_at. rewrite CV, (located_vv _ _ _ W LO), (located_vv _ _ _ W' LO'), O, O'. cbn [obind].
    apply (pick_app _ _ _ _ MM). intros i Hi. apply in_seq in Hi. rewrite (al_len _ A), NC. lia.
  - assert (A1 := located_last (cv sv) (last_time k l) W ltac:(rewrite U2, U3; lra) ltac:(rewrite U2, U3; lra)).
    assert (A2 := located_last b' (last_time k l) W' ltac:(rewrite V2, V3, F2, F3; lra) ltac:(rewrite V2, V3, F2, F3; lra)).
    apply (located_vv _ _ _ W) in A1. apply (located_vv _ _ _ W') in A2. rewrite O, NC in A1. rewrite O', NC' in A2.
    unfold make_node, variables_at. rewrite CV, A1, A2. cbn [obind].
    destruct (pick_spec (vars sv) (seq (C - 1 + 1 - k) k)) as (ids & EP & LP & NP).
    { intros i Hi. apply in_seq in Hi. rewrite (al_len _ A), NC. lia. }
    destruct (pick_spec (vars sv') (seq (C + 1 - 1 + 1 - k) k)) as (ids' & EP' & LP' & NP').
    { intros i Hi. apply in_seq in Hi. rewrite (al_len _ As), CV, NC'. lia. }
    rewrite EP, EP'. cbn [obind]. exists (Node (last_time k l) ids), ids', (fresh sv).
    split; [ reflexivity | ]. split; [ reflexivity | ]. rewrite seq_length in *. cbn [node_variables nvars]. split.
    + destruct (NP' (k - 1)%nat ltac:(lia)) as (w & Ew & Mw). rewrite seq_nth in Ew by lia.
      assert (X : nth_error (map mid (vars sv')) C = Some (fresh sv)).
      { rewrite MM, nth_error_app2 by (rewrite map_length, (al_len _ A), NC; lia).
        rewrite map_length, (al_len _ A), NC, Nat.sub_diag. reflexivity. }
      replace (C + 1 - 1 + 1 - k + (k - 1))%nat with C in Ew by lia. rewrite nth_error_map, Ew in X. cbn [option_map] in X.
      replace (fresh sv) with (nth (k - 1) ids' 0%nat) by (rewrite Mw; congruence). apply nth_In. lia.
    + intros Hin. apply (In_nth _ _ 0%nat) in Hin. destruct Hin as (m & Lm & Em). rewrite LP in Lm.
      destruct (NP m Lm) as (w & Ew & Mw). pose proof (al_fresh _ A w (nth_error_In _ _ Ew)). lia.
Qed.
Print Assumptions C72_kept_add.

(** Removing the first segment: at every time of the shorter curve the
    variables are the same objects, and an expression that used the first
    variable can never again give a Jacobian. *)
Theorem C72_kept_remove : forall k l D C c sv sv', reachable sv -> built k l D C c (cv sv) -> nondecreasing l ->
  (2 * k < length l)%nat -> remove_seg sv = Ok sv' ->
  (forall t, knot l k <= t <= last_time k l -> variables_at sv' t = variables_at sv t) /\
  forall id n, design_variable sv 0 = Ok id -> In id (node_variables n) ->
    (forall K, match transformation_node_J K sv' n with Ok _ => False | _ => True end) /\
    (forall K, match rotation_node_J K sv' n with Ok _ => False | _ => True end) /\
    (forall d, match linear_node_J d sv' n with Ok _ => False | _ => True end) /\
    (forall d, match vector_node_J d sv' n with Ok _ => False | _ => True end).
Proof.
  intros k l D C c sv sv' RE H ND LL E. pose proof (reachable_aligned sv RE) as A.
  destruct (built_wf _ _ _ _ _ _ H ND) as [W [O [K [DD [NC [CO [K2 [CC _]]]]]]]].
  destruct (built_times _ _ _ _ _ _ H ND) as [U1 [U2 U3]].
  destruct (remove_spec sv sv' A E) as (A' & CV & FR & MM & N1). split.
  - intros t I. destruct l as [ | a kn ]; [ cbn [length] in LL; lia | ].
    destruct (remove_T_index (cv sv) a kn t W K ltac:(rewrite O, K; exact LL) ltac:(rewrite O, K, U2; exact I)) as (s & LO & S0 & ET).
    assert (S1 := proj1 LO). unfold variables_at. rewrite CV, (located_vv _ _ _ W LO). unfold local_vv_indices. rewrite ET. cbn [obind].
    assert (OR : order (remove_segment (cv sv)) = order (cv sv)).
    { unfold remove_segment. destruct (knots (cv sv)); [ reflexivity | ]. destruct (0 <? ncols (cv sv))%nat; reflexivity. }
    rewrite OR, isub_ok by lia. cbn [obind]. unfold index_range. rewrite (pick_tl _ _ MM). do 2 f_equal. lia.
  - intros id n E0 Hin.
    assert (DEAD : forallb (alive sv') (nvars n) = false).
    { apply not_true_is_false. intros F. rewrite forallb_forall in F. specialize (F id Hin).
      pose proof (proj2 (C72_segments sv RE) sv' E) as (_ & _ & X). specialize (X id E0).
      unfold value_of, object in X. destruct (find (fun v => (mid v =? id)%nat) (vars sv')) eqn:EF; [ discriminate | ].
      unfold alive in F. apply existsb_exists in F. destruct F as (w & Hw & Ew). pose proof (find_none _ _ EF w Hw) as Z. cbv beta in Z. congruence. }
    assert (NO : forall (X : Type) w cols (J : nat -> X), add_blocks sv' w cols J (nvars n) = UB).
    { intros X w cols J. unfold add_blocks. rewrite DEAD. reflexivity. }
    split; [ | split; [ | split ] ]; intros q.
    + unfold transformation_node_J. destruct (transformation_J q (cv sv') (ntime n)) as [ [[x J] i] | | | ]; cbn [obind]; try exact Logic.I.
      unfold pose_blocks. rewrite NO. exact Logic.I.
    + unfold rotation_node_J. destruct (orientation_J q (cv sv') (ntime n)) as [ [[x J] i] | | | ]; cbn [obind]; try exact Logic.I.
      unfold pose_blocks. rewrite NO. exact Logic.I.
    + unfold linear_node_J. destruct (eval_D_and_jacobian (cv sv') (ntime n) q) as [ [[x J] i] | | | ]; cbn [obind]; try exact Logic.I.
      unfold pose_blocks. rewrite NO. exact Logic.I.
    + unfold vector_node_J. destruct (eval_D_and_jacobian (cv sv') (ntime n) q) as [ [[x J] i] | | | ]; cbn [obind]; try exact Logic.I.
      rewrite NO. exact Logic.I.
Qed.
Print Assumptions C72_kept_remove.

(** A revert after a segment was added or removed undoes nothing, whatever was
    done before. *)
Theorem C72_segments_forget : forall sv o sv' i id, reachable sv -> step sv o = Ok sv' ->
  match o with AddSegment _ _ _ _ _ | AddPoseSegment _ _ _ _ _ | RemoveSegment => True | _ => False end ->
  design_variable sv' i = Ok id ->
  exists sv'', revert sv' id = Ok sv'' /\ forall r j, coef (cv sv'') r j = coef (cv sv') r j.
Proof.
  intros sv o sv' i id RE E T DV. pose proof (reachable_aligned sv RE) as A.
  assert (A' := step_aligned _ _ _ A E). destruct (design_var_inv _ _ _ A' DV) as (v & NV & EI & OB & MC & LC).
  assert (MP : mprev v = col (cv sv') i).
  { destruct o as [ | | | solve junk t n p | solve junk K t TT | ]; try contradiction; cbn [step] in E.
    - unfold add_seg in E. destruct (add_segment solve junk (cv sv) t n p) as [ b' | | | ] eqn:EA; cbn [obind] in E; try discriminate.
      destruct (added_spec sv b' A (add_segment_ncols _ _ _ _ _ _ _ EA)) as (s & Es & As & CV & FR & MM & MPV).
      assert (s = sv') by congruence. subst s. rewrite CV. exact (MPV _ _ NV).
    - unfold add_pose_seg, add_pose_segment in E. destruct (add_segment solve junk (cv sv) t 6 (T_to_curve K TT)) as [ b' | | | ] eqn:EA; cbn [obind] in E; try discriminate.
      destruct (added_spec sv b' A (add_segment_ncols _ _ _ _ _ _ _ EA)) as (s & Es & As & CV & FR & MM & MPV).
      assert (s = sv') by congruence. subst s. rewrite CV. exact (MPV _ _ NV).
    - unfold remove_seg in E. destruct (vars sv) as [ | w r ]; [ discriminate | ].
      destruct (remap (remove_segment (cv sv)) 0 (ncols (remove_segment (cv sv))) r) as [ vs | | | ] eqn:ER; cbn [obind] in E; try discriminate.
      injection E as <-. cbn [vars cv] in *. destruct (remap_spec _ _ _ _ _ ER) as (_ & _ & X). specialize (X _ _ NV).
      destruct (Nat.ltb_spec i (ncols (remove_segment (cv sv)))); [ exact (proj2 X) | lia ]. }
  unfold revert. rewrite OB. cbn [obind]. eexists. split; [ reflexivity | ].
  intros r j. cbn [cv put_col coef]. rewrite MC, MP. destruct (Nat.eqb_spec j i); [ subst; reflexivity | reflexivity ].
Qed.
Print Assumptions C72_segments_forget.

(** minimalDifference is taken from the value before the last update, so the
    difference of a variable to its own current value is not zero. *)
Theorem C72_difference_refuted : exists b sv id x d, run (create b) [Update 1 (fun _ => 1)] = Ok sv /\
  design_variable sv 1 = Ok id /\ value_of sv id = Ok x /\ minimal_difference sv id 6 x = Ok d /\ d 0%nat = -1.
Proof.
  destruct turning_built as (b & H). destruct (built_wf _ _ _ _ _ _ H knots4_nd) as [W [O [K [DD [NC [CO _]]]]]].
  exists b. unfold create. rewrite NC. cbn [seq map run step]. unfold update, object. cbn [vars find mid Nat.eqb].
  cbn [obind cv mcol]. eexists. exists 1%nat. eexists. eexists. split; [ reflexivity | ].
  unfold with_prev. cbn [map vars mid Nat.eqb mcol fresh]. split; [ reflexivity | ].
  unfold value_of, object. cbn [vars find mid Nat.eqb obind cv mcol]. split; [ reflexivity | ].
  unfold minimal_difference, object. cbn [vars find mid Nat.eqb obind cv dim put_col mprev]. rewrite DD. cbn [Nat.eqb].
  split; [ reflexivity | ]. cbv beta. unfold col. cbn [coef put_col Nat.eqb]. rewrite CO. ring.
Qed.
Print Assumptions C72_difference_refuted.

(** ** An accelerating body, turned by half a turn: order 3, one segment *)
Definition knots6 : list R := [0; 1; 2; 3; 4; 5].
Definition half_turn : nat -> nat -> R := fun r _ => if (r =? 3)%nat then PI else 0.
Definition new3 : bspline := BSp 3 [] 0 0 (fun _ _ => 0) [].
Lemma knots6_nd : nondecreasing knots6.
Proof.
  intros i j [A B]. cbn [length knots6] in B. unfold knot, knots6.
  do 6 (destruct i as [ | i ]; [ do 6 (destruct j as [ | j ]; [ first [ lia | cbn [nth]; lra ] | ]); lia | ]). lia.
Qed.
Lemma half_turn_built : exists b, built 3 knots6 6 3 half_turn b.
Proof.
  destruct (C64_set_knots new3 knots6 6 3 half_turn) as [H _];
    [ cbn [order new3]; lia | cbn [knots new3 length]; lia | exact knots6_nd | ].
  destruct H as [b [E _]]; [ cbn; lia | cbn; lia | ]. exists b.
  exists new3. split; [ reflexivity | ]. split; [ lia | ]. split; [ cbn; lia | exact E ].
Qed.
Lemma knots6_times : first_time 3 knots6 = 2 /\ last_time 3 knots6 = 3 /\ last_knot 3 knots6 = 2 /\ long_end 3 knots6.
Proof. unfold long_end. split; [ reflexivity | ]. split; [ reflexivity | ]. split; [ reflexivity | ]. change (last_time 3 knots6) with 3. change (last_knot 3 knots6) with 2. lra. Qed.

(** The second derivative when only the first coefficient of row [r] is not 0. *)
Lemma second_derivative c b r s v : built 3 knots6 6 3 c b -> c r 0%nat = s -> c r 1%nat = 0 -> c r 2%nat = 0 ->
  eval_D b (5 / 2) 2 = Ok v -> v r = s.
Proof.
  intros H C0 C1 C2 E. pose proof knots6_nd as ND. destruct knots6_times as (T1 & T2 & T3 & LE).
  assert (V : forall t, 2 < t < 3 -> exists v, eval b t = Ok v /\ v r = s * ((3 - t) * (3 - t) / 2)).
  { intros t I.
    assert (LO : located b t 2).
    { apply (located_in 3 knots6 6 3 c b t 2 H ND); [ right; rewrite T3; lra | rewrite T1, T2; lra | lia | ].
      unfold knot, knots6. cbn [nth Nat.add]. lra. }
    destruct (eval_pc 3 knots6 6 3 c b t 2 H ND ltac:(lia) LO) as (w & EW & WV); [ unfold knot, knots6; cbn [nth Nat.add]; lra | ].
    exists w. split; [ exact EW | ]. rewrite WV. cbn [bsum Nat.add Nat.sub]. rewrite C0, C1, C2.
    replace (pc (knot knots6) 2 3 0 t) with ((3 - t) * (3 - t) / 2); [ ring | ].
    unfold knots6. repeat rewrite pc_succ; cbn [pc Nat.eqb Nat.add]; unfold knot; cbn [nth].
    repeat rewrite ratio_pos by lra. field. }
  destruct (C65_total 3 knots6 6 3 c b 0 H ND LE) as (F0 & HF0).
  destruct (C65_total 3 knots6 6 3 c b 1 H ND LE) as (F1 & HF1).
  destruct (C65_total 3 knots6 6 3 c b 2 H ND LE) as (F2 & HF2).
  assert (D0 : forall t, 2 < t < 3 -> is_derive (F0 r) t (F1 r t)).
  { intros t I. apply (C65_derivative 3 knots6 6 3 c b 0 r (F0 r) (F1 r) t 2 H ND LE (HF0 r) (HF1 r) ltac:(lia)).
    unfold knot, knots6. cbn [nth Nat.add]. lra. }
  assert (D1 : is_derive (F1 r) (5 / 2) (F2 r (5 / 2))).
  { apply (C65_derivative 3 knots6 6 3 c b 1 r (F1 r) (F2 r) (5 / 2) 2 H ND LE (HF1 r) (HF2 r) ltac:(lia)).
    unfold knot, knots6. cbn [nth Nat.add]. lra. }
  assert (L0 : forall t, 2 < t < 3 -> F0 r t = s * ((3 - t) * (3 - t) / 2)).
  { intros t I. destruct (V t I) as (w & EW & WV). rewrite <- WV. rewrite T1, T2 in HF0. destruct (HF0 r t ltac:(lra)) as (w' & EW' & <-).
    unfold eval in EW. change (Z.of_nat 0) with 0%Z in EW'. congruence. }
  assert (L1 : forall t, 2 < t < 3 -> F1 r t = - s * (3 - t)).
  { intros t I. rewrite <- (is_derive_unique _ _ _ (D0 t I)). apply is_derive_unique.
    apply (is_derive_ext_loc (fun x => s * ((3 - x) * (3 - x) / 2))).
    - apply (locally_interval _ t 2 3); [ cbn; lra | cbn; lra | ]. intros y Y1 Y2. cbn in Y1, Y2. symmetry. apply L0. lra.
    - auto_derive; [ exact Logic.I | match goal with |- ?a = ?b => change (@eq R a b) end; field ]. }
  rewrite T1, T2 in HF2. destruct (HF2 r (5 / 2) ltac:(lra)) as (w & EW & WV). change (Z.of_nat 2) with 2%Z in EW.
  assert (w = v) by congruence. subst w. rewrite WV. rewrite <- (is_derive_unique _ _ _ D1). apply is_derive_unique.
  apply (is_derive_ext_loc (fun x => - s * (3 - x))).
  - apply (locally_interval _ (5 / 2) 2 3); [ cbn; lra | cbn; lra | ]. intros y Y1 Y2. cbn in Y1, Y2. symmetry. apply L1. lra.
  - auto_derive; [ exact Logic.I | match goal with |- ?a = ?b => change (@eq R a b) end; ring ].
Qed.
Lemma constant_row c b r x v : built 3 knots6 6 3 c b -> (forall j, c r j = x) -> eval_D b (5 / 2) 0 = Ok v -> v r = x.
Proof.
  intros H CC E. destruct knots6_times as (T1 & T2 & T3 & LE).
  destruct (C64_hull 3 knots6 6 3 c b (5 / 2) r x x H knots6_nd) as (w & EW & WV);
    [ rewrite T1, T2; lra | right; rewrite T3; lra | rewrite T2, T3; lra | intros j _; rewrite CC; lra | ].
  unfold eval in EW. assert (w = v) by congruence. subst w. lra.
Qed.

(** The motion: the first coefficient of the x position is s. *)
Definition pushed (b : bspline) (s : R) : bspline :=
  BSp (order b) (knots b) (dim b) (ncols b) (fun r j => if ((j * dim b + r) =? 0)%nat then s else coef_vector b (j * dim b + r)%nat) (bases b).
Definition push_rate (id r : nat) : R := if ((id + r) =? 0)%nat then 1 else 0.
Lemma pushed_moving b : built 3 knots6 6 3 half_turn b ->
  moving_vars (create b) push_rate (fun s => Spl (pushed b s) (vars (create b)) (fresh (create b))) /\
  forall s, exists c, built 3 knots6 6 3 c (pushed b s) /\ c 0%nat 0%nat = s /\ c 0%nat 1%nat = 0 /\ c 0%nat 2%nat = 0 /\
    forall j, c 3%nat j = PI /\ c 4%nat j = 0 /\ c 5%nat j = 0.
Proof.
  intros H. destruct (built_wf _ _ _ _ _ _ H knots6_nd) as [W [O [K [DD [NC [CO _]]]]]].
  assert (CV : forall j r : nat, (r < 6)%nat -> coef_vector b (j * 6 + r)%nat = half_turn r j).
  { intros j r L. unfold coef_vector. rewrite DD, CO. rewrite Nat.add_comm, Nat.mod_add, Nat.mod_small by lia.
    rewrite Nat.div_add, Nat.div_small by lia. reflexivity. }
  set (y := fun (s : R) i => if (i =? 0)%nat then s else coef_vector b i).
  assert (ST : forall s, set_coef_vector b (6 * 3) (y s) = Ok (pushed b s)).
  { intros s. unfold set_coef_vector, pushed. rewrite DD, NC. reflexivity. }
  split.
  - exists y, (fun i => if (i =? 0)%nat then 1 else 0), (pushed b). split; [ | split ].
    + cbn [create cv]. rewrite DD, NC. split; [ exact ST | ]. split.
      * intros i _. unfold y. destruct (Nat.eqb_spec i 0); [ | reflexivity ]. subst i. symmetry. exact (CV 0%nat 0%nat ltac:(lia)).
      * intros i _. unfold y. destruct (i =? 0)%nat; auto_derive; auto.
    + intros s. reflexivity.
    + intros i id E r L. cbn [create cv] in L. rewrite DD in L.
      assert (EI : (i < 3)%nat /\ id = i).
      { unfold design_variable in E. destruct (nth_error (vars (create b)) i) as [ v | ] eqn:N; [ | discriminate ].
        cbn [create vars] in N. rewrite nth_error_map in N. rewrite NC in N. destruct (nth_error (seq 0 3) i) as [ m | ] eqn:S; [ | discriminate ].
        cbn [option_map] in N. assert (Li : (i < 3)%nat) by (rewrite <- (seq_length 3 0); apply nth_error_Some; congruence).
        split; [ exact Li | ]. apply (nth_error_nth _ _ 0%nat) in S. rewrite seq_nth in S by lia.
        injection N as <-. injection E as <-. cbn [mid]. lia. }
      destruct EI as (Li & ->).
      assert (OB : forall s, value_of (Spl (pushed b s) (vars (create b)) (fresh (create b))) i = Ok (col (pushed b s) i)).
      { intros s. unfold value_of, object. cbn [vars create cv]. rewrite NC.
        do 3 (destruct i as [ | i ]; [ reflexivity | ]). lia. }
      apply (is_derive_ext (fun s => if ((i * 6 + r) =? 0)%nat then s else half_turn r i)).
      { intros s. rewrite OB. cbn [component]. unfold col, pushed. cbn [coef]. rewrite DD. destruct (i * 6 + r =? 0)%nat; [ reflexivity | ].
        symmetry. apply CV. exact L. }
      unfold push_rate. destruct (Nat.eqb_spec (i * 6 + r) 0), (Nat.eqb_spec (i + r) 0); try lia; auto_derive; auto.
  - intros s. exists (fun r j => y s (j * 6 + r)%nat). split; [ exact (built_with_coefs _ _ _ _ _ _ _ _ H (ST s)) | ].
    assert (YV : forall r j, (0 < r < 6)%nat -> y s (j * 6 + r)%nat = half_turn r j).
    { intros r j L. unfold y. destruct (Nat.eqb_spec (j * 6 + r) 0); [ lia | ]. apply CV. lia. }
    split; [ reflexivity | ]. split; [ exact (CV 1%nat 0%nat ltac:(lia)) | ]. split; [ exact (CV 2%nat 0%nat ltac:(lia)) | ].
    intros j. rewrite !YV by lia. split; [ reflexivity | split; reflexivity ].
Qed.

(** The Jacobian of the acceleration in the body frame is the one of the world
    frame: for a body turned by half a turn it has the wrong sign. *)
Theorem C72_acceleration_body_refuted : exists sv n rate svs W E, reachable sv /\ make_node sv (5 / 2) = Ok n /\
  moving_vars sv rate svs /\ (forall s, acceleration_body_node k_ypr (svs s) n = Ok (W s)) /\
  acceleration_body_node_J k_ypr sv n = Ok E /\
  x0 (applied3 (fun x => x) E rate) = 1 /\ is_derive (fun s => x0 (W s)) 0 (-1).
Proof.
  destruct half_turn_built as (b & H). destruct knots6_times as (T1 & T2 & T3 & LE).
  assert (RE : reachable (create b)) by (exists b, []; reflexivity).
  destruct (C72_make (create b) 3 knots6 6 3 half_turn (5 / 2) ltac:(lia) RE H knots6_nd LE ltac:(rewrite T1, T2; lra)) as (n & EN & TN & _ & _ & FT).
  destruct (pushed_moving b H) as (MV & BB).
  destruct (C72_rate_nodes k_ypr _ 3 knots6 3 half_turn (create b) n push_rate _ 2 (proj1 (proj2 C69_kinds)) RE H knots6_nd LE
    ltac:(rewrite TN, T1, T2; lra) ltac:(rewrite TN; exact FT) ltac:(intros v _; exact Logic.I) MV ltac:(lia))
    as (P & W & EP & EW & VS & _ & _ & EPJ & DP & _).
  assert (PX : forall s, x0 (P s) = s).
  { intros s. destruct (VS s) as (V1 & _). unfold linear_node in V1. cbn [cv] in V1. rewrite TN in V1.
    destruct (BB s) as (c & BU & C0 & C1 & C2 & _).
    destruct (eval_D (pushed b s) (5 / 2) 2) as [ v | | | ] eqn:EV; cbn [obind] in V1; try discriminate.
    assert (P s = head3 v) as -> by congruence. unfold head3. cbn [x0]. exact (second_derivative c _ 0 s v BU C0 C1 C2 EV). }
  assert (X1 : x0 (applied3 (fun x => x) EP push_rate) = 1).
  { destruct DP as (D0 & _). rewrite <- (is_derive_unique _ _ _ D0). apply is_derive_unique.
    apply (is_derive_ext (fun s => s)); [ intros s; symmetry; apply PX | ]. auto_derive; auto. }
  exists (create b), n, push_rate, (fun s => Spl (pushed b s) (vars (create b)) (fresh (create b))).
  exists (fun s => m3_vec (m3_tr (ypr_C (V3 PI 0 0))) (P s)), EP.
  split; [ exact RE | ]. split; [ exact EN | ]. split; [ exact MV | ]. split.
  { intros s. destruct (VS s) as (V1 & _). unfold linear_node in V1. unfold acceleration_body_node, linear_acceleration_body.
    cbn [cv] in V1 |- *. rewrite TN in V1 |- *. destruct (BB s) as (c & BU & _ & _ & _ & CR).
    destruct (eval_D (pushed b s) (5 / 2) 2) as [ v | | | ] eqn:EV; cbn [obind] in V1; try discriminate.
    assert (P s = head3 v) as -> by congruence.
    destruct (C65_total 3 knots6 6 3 c _ 0 BU knots6_nd LE) as (F0 & HF0). rewrite T1, T2 in HF0.
    destruct (HF0 0%nat (5 / 2) ltac:(lra)) as (w & EW0 & _). change (Z.of_nat 0) with 0%Z in EW0. rewrite EW0. cbn [obind].
    replace (tail3 w) with (V3 PI 0 0); [ reflexivity | ]. unfold tail3.
    rewrite (constant_row c _ 3 PI w BU (fun j => proj1 (CR j)) EW0),
            (constant_row c _ 4 0 w BU (fun j => proj1 (proj2 (CR j))) EW0),
            (constant_row c _ 5 0 w BU (fun j => proj2 (proj2 (CR j))) EW0). reflexivity. }
  split; [ exact EPJ | ]. split; [ exact X1 | ].
  apply (is_derive_ext (fun s => - s)).
  { intros s. unfold ypr_C. cbn [x0 x1 x2]. rewrite cos_PI, sin_PI, cos_0, sin_0. unfold m3_vec, m3_tr. kunf. rewrite <- (PX s) at 1.
    generalize (P s). intros [p0 p1 p2]. cbn [x0 x1 x2]. match goal with |- ?a = ?b => change (@eq R a b) end. ring. }
  auto_derive; auto.
Qed.
Print Assumptions C72_acceleration_body_refuted.

(** The hypotheses of the theorems above hold for the moving body. *)
Example C72_ex : exists b n, built 3 knots6 6 3 half_turn (cv (create b)) /\ reachable (create b) /\ long_end 3 knots6 /\
  make_node (create b) (5 / 2) = Ok n /\ nvars n = [0%nat; 1%nat; 2%nat] /\ rotation_ok (fun _ => True) (cv (create b)) (5 / 2) /\
  moving_vars (create b) push_rate (fun s => Spl (pushed b s) (vars (create b)) (fresh (create b))).
Proof.
  destruct half_turn_built as (b & H). destruct knots6_times as (T1 & T2 & T3 & LE).
  destruct (built_wf _ _ _ _ _ _ H knots6_nd) as [W [O [K [DD [NC [CO _]]]]]].
  exists b, (Node (5 / 2) [0; 1; 2]%nat). split; [ exact H | ]. split; [ exists b, []; reflexivity | ]. split; [ exact LE | ].
  split; [ | split; [ reflexivity | split; [ intros v _; exact Logic.I | exact (proj1 (pushed_moving b H)) ] ] ].
  assert (LO : located b (5 / 2) 2).
  { apply (located_in 3 knots6 6 3 half_turn b _ 2 H knots6_nd); [ right; rewrite T3; lra | rewrite T1, T2; lra | lia | ].
    unfold knot, knots6. cbn [nth Nat.add]. lra. }
  unfold make_node, variables_at. cbn [create cv vars]. rewrite (located_vv _ _ _ W LO), O, NC. reflexivity.
Qed.
