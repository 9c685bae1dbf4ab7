(** * C86: Jacobians by finite differences *)
From Coquelicot Require Import Coquelicot.
From Coq Require Import Reals List Bool Arith ZArith Lra Lia.
From Verif Require Import Base KinModel DistModel PinModel OmniModel RpeModel FdModel FdSpec FdProofs.
Import ListNotations.
Local Close Scope Z_scope.
Local Open Scope R_scope.

(** NumericalDiff: a column for every component, each entry within M h^2/6 of the
    partial derivative, where the step h is eps times the larger of one and the
    component's size and M bounds the third derivative; a quadratic function is
    differentiated exactly. *)
Theorem C86_difference : forall (f : list R -> list R) (m : nat) (eps : R) (x0 : list R),
  0 < eps -> (forall x, length x = length x0 -> length (f x) = m) ->
  exists J, estimate (fun (s : unit) x => (s, f x)) eps tt x0 = Ok (tt, J) /\ length J = length x0 /\
  forall c r g1 M, (c < length x0)%nat ->
    let x := nth c x0 0 in let h := eps * Rmax 1 (Rabs x) in
    bends3 (fun s => nth r (f (with_component x0 c s)) 0) g1 x h M ->
    Rabs (entry J r c - g1 x) <= M * h ^ 2 / 6.
Proof.
  intros f m eps x0 He L.
  destruct (estimate_ok (fun (s : unit) x => (s, f x)) eps (fun _ => True) f (length x0) m
    (fun s x _ _ => conj Logic.I eq_refl) L x0 tt eq_refl Logic.I) as ([] & E & _).
  eexists. split; [ exact E | ]. split; [ rewrite map_length, seq_length; reflexivity | ].
  intros c r g1 M Hc x h B. unfold entry.
  rewrite (nth_indep _ [] (col eps f x0 0%nat)) by (rewrite map_length, seq_length; exact Hc).
  rewrite map_nth, seq_nth by exact Hc. cbn [Nat.add].
  assert (W : width eps (nth c x0 0) = h).
  { unfold width, h, x. rewrite Rmult_comm. rewrite <- (Rmult_1_r eps) at 2.
    rewrite RmaxRmult by lra. rewrite Rmax_comm. reflexivity. }
  assert (P := col_near eps f (length x0) m L x0 c r g1 M He eq_refl Hc).
  rewrite W in P. apply P, B.
Qed.
Print Assumptions C86_difference.

(** evaluateJacobiansFiniteDifference of an error term with distinct design
    variables: one block for each, in order, with a column for each component,
    within M (10^-6)^2/6 of the derivative of the error when only this component
    moves; the design variables have their values again. *)
Theorem C86_term : forall (val : Type) (dim : nat -> nat) (move : nat -> val -> list R -> val) (err : (nat -> val) -> list R) (m : nat)
    (ids : list nat) (e : store (val := val)) (stored : list R),
  NoDup ids -> (forall j v, move j v (repeat 0 (dim j)) = v) -> (forall w, length (err w) = m) ->
  exists e' stored' bs, term_jacobians dim move err ids (e, stored) = Ok ((e', stored'), bs) /\
    (forall j, now e' j = now e j) /\ map fst bs = ids /\
    forall i B, In (i, B) bs -> length B = dim i /\
      forall k, (k < dim i)%nat -> length (nth k B []) = m /\
      forall r g1 M, bends3 (fun s => nth r (err (nudged dim move (now e) i k s)) 0) g1 0 (1 / 10 ^ 6) M ->
        Rabs (entry B r k - g1 0) <= M * (1 / 10 ^ 6) ^ 2 / 6.
Proof.
  intros val dim move err m ids e stored D Z L.
  destruct (term_estimate dim move err ids (1 / 10 ^ 6) (now e) (e, stored) m D ltac:(lra) Z L (fun _ => eq_refl)) as ([e' st'] & J & E & K & F).
  exists e', st', (blocks dim ids J). unfold term_jacobians. rewrite E. cbn [obind].
  split; [ reflexivity | split; [ exact K | split; [ apply blocks_ids | ] ] ].
  intros i B I. exact (proj1 (Forall_forall _ _) F (i, B) I).
Qed.
Print Assumptions C86_term.

(** checkJacobiansNumerical.  When it does not throw, every design variable has an
    analytical Jacobian whose entries are within the tolerance plus M tol^2/6 of
    the derivative.  It does not throw when every design variable has the true
    Jacobian and tol M <= 6.  The design variables have their values again. *)
Theorem C86_check : forall (val : Type) (dim : nat -> nat) (move : nat -> val -> list R -> val) (err : (nat -> val) -> list R) (m : nat)
    (ids : list nat) (e : store (val := val)) (stored : list R) (tol : R) (ana : nat -> option (list (list R))),
  NoDup ids -> (forall j v, move j v (repeat 0 (dim j)) = v) -> (forall w, length (err w) = m) -> 0 < tol ->
  (forall i a, ana i = Some a -> length a = dim i /\ forall k, (k < dim i)%nat -> length (nth k a []) = m) ->
  exists e' stored' b, check_numerical dim move err ids tol ana (e, stored) = Ok ((e', stored'), b) /\
    (forall j, now e' j = now e j) /\
    (b = true -> forall i, In i ids -> exists a, ana i = Some a /\
       forall k r g1 M, (k < dim i)%nat -> (r < m)%nat -> bends3 (fun s => nth r (err (nudged dim move (now e) i k s)) 0) g1 0 tol M ->
         Rabs (entry a r k - g1 0) <= tol + M * tol ^ 2 / 6) /\
    ((forall i, In i ids -> exists a, ana i = Some a /\
       forall k r, (k < dim i)%nat -> (r < m)%nat -> exists g1 M,
         bends3 (fun s => nth r (err (nudged dim move (now e) i k s)) 0) g1 0 tol M /\ entry a r k = g1 0 /\ tol * M <= 6) -> b = true).
Proof.
  intros val dim move err m ids e stored tol ana D Z L T A.
  destruct (term_estimate dim move err ids tol (now e) (e, stored) m D T Z L (fun _ => eq_refl)) as ([e' st'] & J & E & K & F).
  exists e', st', (compare_blocks tol ana (blocks dim ids J)). unfold check_numerical. rewrite E. cbn [obind].
  rewrite Forall_forall in F.
  split; [ reflexivity | split; [ exact K | split ] ].
  - intros C i Hi. rewrite compare_iff in C. rewrite <- (blocks_ids dim ids J) in Hi. apply in_map_iff in Hi. destruct Hi as ([i' B] & <- & I).
    destruct (C _ _ I) as (a & Ea & N). exists a. split; [ exact Ea | ]. intros k r g1 M Hk Hr Bd. cbn [fst] in *.
    destruct (A _ _ Ea) as (La & Ls). destruct (F _ I) as (LB & G). cbn [fst snd] in LB, G.
    assert (Q := proj1 (near_block_iff tol m a B ltac:(lia) ltac:(intros q Hq; rewrite La in Hq; split; [ apply Ls, Hq | apply (G q Hq) ])) N k r ltac:(lia) Hr).
    assert (P := proj2 (G k Hk) r g1 M Bd). rewrite (Rabs_pos_eq tol) in Q by lra.
    replace (entry a r k - g1 0) with (- (entry B r k - entry a r k) + (entry B r k - g1 0)) by ring.
    eapply Rle_trans; [ apply Rabs_triang | ]. rewrite Rabs_Ropp. lra.
  - intros H. apply compare_iff. intros i B I.
    assert (Hi : In i ids) by (rewrite <- (blocks_ids dim ids J); apply in_map_iff; exists (i, B); split; [ reflexivity | exact I ]).
    destruct (H i Hi) as (a & Ea & V). exists a. split; [ exact Ea | ].
    destruct (A _ _ Ea) as (La & Ls). destruct (F _ I) as (LB & G). cbn [fst snd] in LB, G.
    apply (near_block_iff tol m a B ltac:(lia) ltac:(intros q Hq; rewrite La in Hq; split; [ apply Ls, Hq | apply (G q Hq) ])).
    intros k r Hk Hr. rewrite La in Hk. destruct (V k r Hk Hr) as (g1 & M & Bd & Eg & HM).
    rewrite Eg, (Rabs_pos_eq tol) by lra. eapply Rle_trans; [ apply (proj2 (G k Hk) r g1 M Bd) | ].
    replace (M * tol ^ 2 / 6) with (tol * (tol * M / 6)) by field.
    rewrite <- (Rmult_1_r tol) at 3. apply Rmult_le_compat_l; lra.
Qed.
Print Assumptions C86_check.

(** A scalar variable. *)
Definition slide (j : nat) (v : R) (d : list R) : R := v + nth 0 d 0.

(** The error kept by the term is afterwards not that of its state: it is the one
    with the last component moved by -10^-6. *)
Theorem C86_stale_refuted : exists (err : (nat -> R) -> list R) (e : store) (stored : list R),
  stored = err (now e) /\
  exists e' stored' bs, term_jacobians (fun _ => 1%nat) slide err [0%nat] (e, stored) = Ok ((e', stored'), bs) /\
    stored' <> err (now e').
Proof.
  exists (fun w => [w 0%nat]), (fun _ => (5, 5)), [5]. split; [ reflexivity | ].
  do 3 eexists. split; [ cbn; reflexivity | ].
  cbn. intros H. assert (X : 5 + (0 + - Rmax (Rabs 0 * (1 / (10 * (10 * (10 * (10 * (10 * (10 * 1)))))))) (1 / (10 * (10 * (10 * (10 * (10 * (10 * 1)))))))) = 5).
  { unfold slide in H. cbn in H. congruence. }
  rewrite Rmax_right in X; [ lra | ]. rewrite Rabs_R0. lra.
Qed.
Print Assumptions C86_stale_refuted.

(** A term that was given the same design variable twice: the error is the
    variable, the blocks added for it make 3/2 instead of one. *)
Theorem C86_twice_refuted : exists (err : (nat -> R) -> list R) (e : store) (stored : list R),
  (forall s, err (nudged (fun _ => 1%nat) slide (now e) 0 0 s) = [now e 0%nat + s]) /\
  exists s' B C, term_jacobians (fun _ => 1%nat) slide err [0%nat; 0%nat] (e, stored) = Ok (s', [(0%nat, B); (0%nat, C)]) /\
    entry B 0 0 + entry C 0 0 = 3 / 2.
Proof.
  exists (fun w => [w 0%nat]), (fun _ => (5, 5)), [5]. split.
  - intros s. unfold nudged, slide, with_component. cbn. reflexivity.
  - do 3 eexists. split; [ cbn; reflexivity | ].
    unfold entry, slide; cbn. set (h := Rmax _ _).
    assert (Hh : h = / 1000000). { unfold h. rewrite Rabs_R0, Rmult_0_l, Rmax_right; lra. }
    rewrite Hh. field.
Qed.
Print Assumptions C86_twice_refuted.

(** The macro for points *)
Theorem C86_point : forall (f : list R -> list R) (m : nat) (step : R) (x0 : list R) c r g1 M,
  0 < step -> (forall x, length x = length x0 -> length (f x) = m) -> (c < length x0)%nat ->
  bends3 (fun s => nth r (f (with_component x0 c s)) 0) g1 (nth c x0 0) step M ->
  Rabs (entry (estimate_point f step x0) r c - g1 (nth c x0 0)) <= M * step ^ 2 / 6.
Proof.
  intros f m step x0 c r g1 M Hs L Hc B. unfold entry, estimate_point.
  rewrite point_columns_eq by (intros d Hd; apply in_seq in Hd; lia).
  set (F := fun c => quotients (f (bump x0 c step)) (f (bump x0 c (- step))) (step * 2)).
  rewrite (nth_indep _ [] (F 0%nat)) by (rewrite map_length, seq_length; exact Hc).
  rewrite map_nth, seq_nth by exact Hc. unfold F. cbn [Nat.add].
  rewrite quotients_nth by (rewrite !L by apply bump_length; reflexivity).
  rewrite !bump_with by exact Hc. fold (Rminus (nth c x0 0) step).
  apply (central (fun s => nth r (f (with_component x0 c s)) 0)); assumption.
Qed.
Print Assumptions C86_point.

(** The macros for parameters: column c is within M step^4/18 of the derivative,
    not at the parameters, but where those before (for distortions: after)
    component c are lower by two steps. *)
Theorem C86_parameters : forall (f : list R -> list R) (m : nat) (step : R) (I : list R) c r g1 M,
  0 < step -> (forall x, length x = length I -> length (f x) = m) -> (c < length I)%nat ->
  (bends5 (fun s => nth r (f (with_component (lower_before I c (2 * step)) c s)) 0) g1 (nth c I 0) (2 * step) M ->
     Rabs (entry (estimate_intrinsic f step I) r c - g1 (nth c I 0)) <= M * step ^ 4 / 18) /\
  (bends5 (fun s => nth r (f (with_component (lower_after I c (2 * step)) c s)) 0) g1 (nth c I 0) (2 * step) M ->
     Rabs (entry (estimate_distortion f step I) r c - g1 (nth c I 0)) <= M * step ^ 4 / 18).
Proof.
  intros f m step I c r g1 M Hs L Hc. split; intros B; unfold entry.
  - rewrite intrinsic_column by exact Hc.
    assert (E : nth c (lower_before I c (2 * step)) 0 = nth c I 0) by (rewrite lower_before_nth, Nat.ltb_irrefl by exact Hc; ring).
    rewrite <- E. rewrite <- E in B. apply (five_near f step _ c r g1 M m); try assumption; rewrite lower_before_length; assumption.
  - rewrite distortion_column by exact Hc.
    assert (E : nth c (lower_after I c (2 * step)) 0 = nth c I 0) by (rewrite lower_after_nth, Nat.ltb_irrefl by exact Hc; ring).
    rewrite <- E. rewrite <- E in B. apply (five_near f step _ c r g1 M m); try assumption; rewrite lower_after_length; assumption.
Qed.
Print Assumptions C86_parameters.

(** homogeneousToKeypoint of an omnidirectional camera as function of the parameters *)
Definition omni_image (k : list R) : list R :=
  match image 640 480 (Omnidirectional NoLens) k [] (V4 3 0 4 1) with Val y => [u0 y; u1 y] | _ => [0; 0] end.
Lemma omni_image_eq xi fu fv cu cv : -1 / 2 <= xi <= 1 / 2 ->
  omni_image [xi; fu; fv; cu; cv] = [fu * (3 * (1 / (4 + xi * 5))) + cu; fv * (0 * (1 / (4 + xi * 5))) + cv].
Proof.
  intros H. unfold omni_image, image, omni_hproject. change (q3 (V4 3 0 4 1)) with 1.
  destruct (Rlt_dec 1 0) as [ X | _ ]; [ lra | ].
  assert (S5 : sqrt (3 * 3 + 0 * 0 + 4 * 4) = 5).
  { replace (3 * 3 + 0 * 0 + 4 * 4) with (5 * 5) by ring. apply sqrt_square; lra. }
  unfold omni_project, p_norm, omni_camera, omni_set, make_omni. cbn -[Rle_dec Req_EM_T]. rewrite S5.
  destruct (Rle_dec xi 1) as [ _ | X ]; [ | lra ].
  destruct (Rle_dec 4 (- (xi * 5))) as [ X | _ ]; [ lra | ].
  destruct (Req_EM_T (4 + xi * 5) 0) as [ X | _ ]; [ lra | ].
  reflexivity.
Qed.
(** Its derivative with respect to the focal length, in which it is linear, is
    missed by more than 10^-5 because the parameter xi has drifted. *)
Theorem C86_parameters_refuted : exists (k : list R),
  (forall fu, nth 0 (omni_image (with_component k 1 fu)) 0 = 3 / 4 * fu) /\
  Rabs (entry (estimate_intrinsic omni_image (1 / 10 ^ 5) k) 0 1 - 3 / 4) > 1 / 10 ^ 5.
Proof.
  exists [0; 1; 1; 0; 0]. split.
  - intros fu. unfold with_component. cbn [length seq map Nat.eqb nth]. rewrite omni_image_eq by lra. cbn [nth]. field.
  - unfold entry. rewrite intrinsic_column by (cbn; lia). unfold five_col.
    assert (E : lower_before [0; 1; 1; 0; 0] 1 (2 * (1 / 10 ^ 5)) = [0 - 2 * (1 / 10 ^ 5); 1; 1; 0; 0]).
    { unfold lower_before. cbn [length seq map Nat.ltb Nat.leb nth]. rewrite !Rminus_0_r. reflexivity. }
    rewrite E. unfold bump. cbn [firstn skipn app]. rewrite !omni_image_eq by lra. cbn [stencil nth].
    match goal with |- Rabs ?x > _ => replace x with (3 * / (4 - 1 / 10000) - 3 / 4) by field end.
    rewrite Rabs_pos_eq.
    + assert (3 * / (4 - 1 / 10000) = 30000 / 39999) by field. lra.
    + assert (3 * / (4 - 1 / 10000) = 30000 / 39999) by field. lra.
Qed.
Print Assumptions C86_parameters_refuted.

(** The hypotheses are met: a quadratic error of two scalars, whose Jacobian is
    found exactly. *)
Example C86_ex_term : forall v w : R,
  exists s' bs B C, term_jacobians (fun _ => 1%nat) slide (fun z => [z 3%nat * z 3%nat; z 3%nat * z 7%nat]) [3%nat; 7%nat]
      ((fun j => if (j =? 3)%nat then (v, v) else (w, w)), []) = Ok (s', bs) /\ bs = [(3%nat, B); (7%nat, C)] /\
    entry B 0 0 = 2 * v /\ entry B 1 0 = w /\ entry C 0 0 = 0 /\ entry C 1 0 = v.
Proof.
  intros v w. set (e := fun j => if (j =? 3)%nat then (v, v) else (w, w)).
  destruct (C86_term R (fun _ => 1%nat) slide (fun z => [z 3%nat * z 3%nat; z 3%nat * z 7%nat]) 2 [3%nat; 7%nat] e [])
    as (e' & st & bs & E & _ & F & G).
  - repeat constructor; cbn; intuition discriminate.
  - intros j x. unfold slide; cbn. ring.
  - reflexivity.
  - destruct bs as [ | [i B] [ | [j C] [ | ] ] ]; try discriminate. cbn [map fst] in F.
    assert (i = 3%nat) by congruence. assert (j = 7%nat) by congruence. subst i j.
    exists (e', st), [(3%nat, B); (7%nat, C)], B, C. split; [ exact E | split; [ reflexivity | ] ].
    assert (Q : forall g1 q x, bends3 q g1 0 (1 / 10 ^ 6) 0 -> (forall M, bends3 q g1 0 (1 / 10 ^ 6) M -> Rabs (x - g1 0) <= M * (1 / 10 ^ 6) ^ 2 / 6) -> x = g1 0).
    { intros g1 q x P T. specialize (T 0 P). unfold Rdiv in T. rewrite !Rmult_0_l in T. generalize (Rabs_pos (x - g1 0)). intros P0.
      assert (Z : Rabs (x - g1 0) = 0) by lra. apply Rabs_eq_0 in Z. lra. }
    assert (D : forall a b c : R, bends3 (fun s => a + b * s + c * s * s) (fun s => b + 2 * c * s) 0 (1 / 10 ^ 6) 0).
    { intros a b c. exists (fun _ => 2 * c), (fun _ => 0). intros s _.
      split; [ | split; [ | split ] ].
      - auto_derive; [ tauto | match goal with |- ?a = ?b => change (@eq R a b) end; ring ].
      - auto_derive; [ tauto | match goal with |- ?a = ?b => change (@eq R a b) end; ring ].
      - auto_derive; [ tauto | reflexivity ].
      - rewrite Rabs_R0. lra. }
    destruct (G 3%nat B (or_introl eq_refl)) as (_ & GB). destruct (GB 0%nat ltac:(lia)) as (_ & GB').
    destruct (G 7%nat C (or_intror (or_introl eq_refl))) as (_ & GC). destruct (GC 0%nat ltac:(lia)) as (_ & GC').
    assert (N : forall i k s, nudged (fun _ => 1%nat) slide (now e) i k s = fun j => if (j =? i)%nat then now e i + (if (0 =? k)%nat then s else 0) else now e j) by reflexivity.
    assert (X : forall (B : list (list R)) r i a b c,
      (forall s, nth r [nudged (fun _ => 1%nat) slide (now e) i 0 s 3%nat * nudged (fun _ => 1%nat) slide (now e) i 0 s 3%nat;
               nudged (fun _ => 1%nat) slide (now e) i 0 s 3%nat * nudged (fun _ => 1%nat) slide (now e) i 0 s 7%nat] 0 = a + b * s + c * s * s) ->
      (forall r g1 M, bends3 (fun s => nth r [nudged (fun _ => 1%nat) slide (now e) i 0 s 3%nat * nudged (fun _ => 1%nat) slide (now e) i 0 s 3%nat;
               nudged (fun _ => 1%nat) slide (now e) i 0 s 3%nat * nudged (fun _ => 1%nat) slide (now e) i 0 s 7%nat] 0) g1 0 (1 / 10 ^ 6) M ->
        Rabs (entry B r 0 - g1 0) <= M * (1 / 10 ^ 6) ^ 2 / 6) -> entry B r 0 = b).
    { intros B' r i a b c Eq T. transitivity (b + 2 * c * 0); [ | ring ].
      apply (Q (fun s => b + 2 * c * s) (fun s => a + b * s + c * s * s)); [ apply D | ].
      intros M HM. apply (T r (fun s => b + 2 * c * s) M).
      replace (fun s : R => nth r _ 0) with (fun s => a + b * s + c * s * s); [ exact HM | ].
      apply FunctionalExtensionality.functional_extensionality. intros s. symmetry. apply Eq. }
    split; [ | split; [ | split ] ].
    + apply (X B 0%nat 3%nat (v * v) (2 * v) 1); [ | exact GB' ]. intros s. rewrite N. cbn. ring.
    + apply (X B 1%nat 3%nat (v * w) w 0); [ | exact GB' ]. intros s. rewrite N. cbn. ring.
    + apply (X C 0%nat 7%nat (v * v) 0 0); [ | exact GC' ]. intros s. rewrite N. cbn. ring.
    + apply (X C 1%nat 7%nat (v * w) v 0); [ | exact GC' ]. intros s. rewrite N. cbn. ring.
Qed.
