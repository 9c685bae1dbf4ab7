From Coquelicot Require Import Coquelicot.
From Coq Require Import Reals List Arith Lia Psatz.
From Verif Require Import KinModel KinSpec KinProofs KinCurve KinJac RotModel RotSpec RotEuler RotVec
  TfModel TfSpec TfProofs TfCurve HpProofs BpModel BpProofs ExprModel ExprSpec ExprProofs.
Import ListNotations.
Local Open Scope R_scope.

Section Main.
Variables (inv3 : m3 -> m3) (inv4 : m4 -> m4).
Hypothesis I3 : inverts3 inv3.
Hypothesis I4 : inverts4 inv4.
Variables (th : env) (d : steps).
Notation mv := (moved th d).

Definition goodR (e : rexp) : Prop := ok_r inv4 th e ->
  SO3 (value_r inv4 th e) /\
  exists w, m3_derive (fun s => value_r inv4 (mv s) e) 0 (m3_mul (m3_scale (-1) (crossMx w)) (value_r inv4 th e)) /\
    (forall M r, applied (jac_r inv3 inv4 th th e M) d r = v3_dot (M r) w) /\
    forall r, applied (jac0_r inv3 inv4 th th e) d r = v3_at w r.
Definition goodE (e : eexp) : Prop := ok_e inv4 th e ->
  exists w, v3_derive (fun s => value_e inv4 (mv s) e) 0 w /\
    (forall M r, applied (jac_e inv3 inv4 th th e M) d r = v3_dot (M r) w) /\
    forall r, applied (jac0_e inv3 inv4 th th e) d r = v3_at w r.
Definition goodT (e : texp) : Prop := ok_t inv4 th e ->
  SE3 (value_t inv4 th e) /\ locally 0 (fun s => affine (value_t inv4 (mv s) e)) /\
  exists w D, m4_derive (fun s => value_t inv4 (mv s) e) 0 D /\
    (forall p, m4_vec D p = twist w (m4_vec (value_t inv4 th e) p)) /\
    (forall M r, applied (jac_t inv3 inv4 th th e M) d r = v6_dot (M r) w) /\
    forall r, applied (jac0_t inv3 inv4 th th e) d r = v6_at w r.
Definition goodH (e : hexp) : Prop := ok_h inv4 th e ->
  exists w, v4_derive (fun s => value_h inv4 (mv s) e) 0 w /\
    (forall M r, applied (jac_h inv3 inv4 th th e M) d r = v4_dot (M r) w) /\
    forall r, applied (jac0_h inv3 inv4 th th e) d r = v4_at w r.
Definition goodS (e : sexp) : Prop := ok_s th e ->
  exists w, is_derive (fun s => value_s (mv s) e) 0 w /\
    (forall M r, applied (jac_s th e M) d r = M r * w) /\
    forall r, applied (jac0_s th e) d r = match r with O => w | _ => 0 end.

Lemma scalars : forall e, goodS e.
Proof.
  induction e as [ i | c | l IHl r IHr | l IHl r IHr | l IHl r IHr c ]; intros H; cbn [ok_s] in H.
  - exists (ds d i). split; [ | split ].
    + cbn [value_s]. unfold moved, update, along. cbn [vs ds]. auto_derive; [ tauto | ring ].
    + intros M r. cbn [jac_s applied coords ldot]. ring.
    + intros r. cbn [jac0_s applied coords]. destruct r; cbn [ldot]; ring.
  - exists 0. split; [ | split ].
    + exact (@is_derive_const _ R_NormedModule c 0).
    + intros M r. cbn [jac_s applied]. ring.
    + intros r. cbn [jac0_s applied]. destruct r; reflexivity.
  - destruct (IHl (proj1 H)) as (a & Da & Ja & Ja0). destruct (IHr (proj2 H)) as (b & Db & Jb & Jb0).
    exists (a * value_s th r + value_s th l * b). split; [ | split ].
    + pose proof (is_derive_mult _ _ 0 _ _ Da Db Rmult_comm) as P. cbn beta in P. rewrite moved_0 in P. exact P.
    + intros M k. cbn [jac_s]. rewrite applied_app, Ja, Jb. ring.
    + intros k. cbn [jac0_s]. rewrite applied_app, Ja, Jb. destruct k; ring.
  - destruct H as (Hl & Hr & N). destruct (IHl Hl) as (a & Da & Ja & Ja0). destruct (IHr Hr) as (b & Db & Jb & Jb0).
    exists (a / value_s th r - value_s th l * b / (value_s th r * value_s th r)). split; [ | split ].
    + assert (N0 : value_s (mv 0) r <> 0) by (rewrite moved_0; exact N).
      pose proof (is_derive_div _ _ 0 _ _ Da Db N0) as P. cbn beta in P. rewrite moved_0 in P.
      eapply eq_rect; [ exact P | ]. match goal with |- ?x = ?y => change (@eq R x y) end. field. exact N.
    + intros M k. cbn [jac_s]. rewrite applied_app, Ja, Jb. field. exact N.
    + intros k. cbn [jac0_s]. rewrite applied_app, Ja, Jb. destruct k; field; exact N.
  - destruct (IHl (proj1 H)) as (a & Da & Ja & Ja0). destruct (IHr (proj2 H)) as (b & Db & Jb & Jb0).
    exists (a + c * b). split; [ | split ].
    + exact (@is_derive_plus _ R_NormedModule _ _ 0 _ _ Da (is_derive_scal _ 0 c _ Db)).
    + intros M k. cbn [jac_s]. rewrite applied_app, Ja, Jb. ring.
    + intros k. cbn [jac0_s]. rewrite applied_app, Ja0, Jb. destruct k; ring.
Qed.

Lemma at_cases (P : nat -> Prop) : P 0%nat -> P 1%nat -> P 2%nat -> (forall r, P (S (S (S r)))) -> forall r, P r.
Proof. intros A B C D [ | [ | [ | r ] ] ]; auto. Qed.
Lemma v3_at_big v r : v3_at v (S (S (S r))) = 0.
Proof. destruct v. unfold v3_at, v3_list. cbn [nth]. destruct r; reflexivity. Qed.
Lemma rows3_at A w r : v3_dot (rows3 A r) w = v3_at (m3_vec A w) r.
Proof.
  revert r. apply at_cases; try reflexivity. intros r. rewrite v3_at_big. unfold rows3. kring.
Qed.
Lemma v3_at_add a b r : v3_at a r + v3_at b r = v3_at (v3_add a b) r.
Proof. revert r. apply at_cases; try reflexivity. intros r. rewrite !v3_at_big. ring. Qed.
Lemma v3_at_neg a r : - v3_at a r = v3_at (v3_neg a) r.
Proof. revert r. apply at_cases; try reflexivity. intros r. rewrite !v3_at_big. ring. Qed.
Lemma v6_at_add a b r : v6_at a r + v6_at b r = v6_at (v6_add a b) r.
Proof. unfold v6_at. cbn [v6_add hd3 tl3]. destruct (r <? 3)%nat; apply v3_at_add. Qed.
Lemma rows63_at A B w r : v3_dot (rows63 A B r) w = v6_at (V6 (m3_vec A w) (m3_vec B w)) r.
Proof. unfold rows63, v6_at. cbn [hd3 tl3]. destruct (r <? 3)%nat; apply rows3_at. Qed.
Lemma rows36_at A B w r : v6_dot (rows36 A B r) w = v3_at (v3_add (m3_vec A (hd3 w)) (m3_vec B (tl3 w))) r.
Proof. unfold rows36, v6_dot. cbn [hd3 tl3]. rewrite !rows3_at, v3_at_add. reflexivity. Qed.
Lemma rows66_at A w r : v6_dot (rows66 A r) w = v6_at (m6_vec A w) r.
Proof. unfold rows66, v6_at. destruct (r <? 3)%nat; rewrite rows36_at; reflexivity. Qed.
Lemma rows34_at A w r : v4_dot (rows34 A r) w = v3_at (m34_vec A w) r.
Proof. revert r. apply at_cases; try reflexivity. intros r. rewrite v3_at_big. unfold rows34. kring. Qed.
Lemma rows43_at A w r : v3_dot (rows43 A r) w = v4_at (m43_vec A w) r.
Proof. destruct r as [ | [ | [ | [ | r ] ] ] ]; try reflexivity. unfold rows43, v4_at. kring. Qed.
Lemma rows46_at A w r : v6_dot (rows46 A r) w = v4_at (m46_vec A w) r.
Proof.
  unfold rows46, v6_dot. cbn [hd3 tl3]. rewrite !rows43_at. unfold m46_vec.
  destruct r as [ | [ | [ | [ | r ] ] ] ]; try reflexivity. unfold v4_at. ring.
Qed.
Lemma rows4_at A w r : v4_dot (rows4 A r) w = v4_at (m4_vec A w) r.
Proof. destruct r as [ | [ | [ | [ | r ] ] ] ]; try reflexivity. unfold rows4, v4_at. kring. Qed.
Lemma v4_at_add a b r : v4_at a r + v4_at b r = v4_at (v4_add a b) r.
Proof. destruct r as [ | [ | [ | [ | r ] ] ] ]; try reflexivity. unfold v4_at. ring. Qed.
Lemma v3_dot_neg a b : v3_dot (v3_neg a) b = - v3_dot a b.
Proof. kring. Qed.

Lemma dot_row_m3 v A w : v3_dot (row_m3 v A) w = v3_dot v (m3_vec A w).
Proof. kring. Qed.
Lemma dot_add v a b : v3_dot v a + v3_dot v b = v3_dot v (v3_add a b).
Proof. kring. Qed.
Lemma dot_row_m36 v A B w : v6_dot (row_m36 v A B) w = v3_dot v (v3_add (m3_vec A (hd3 w)) (m3_vec B (tl3 w))).
Proof. unfold row_m36. tring. Qed.
Lemma dot_row_m63 v A B w : v3_dot (row_m63 v A B) w = v6_dot v (V6 (m3_vec A w) (m3_vec B w)).
Proof. unfold row_m63. tring. Qed.
Lemma dot_row_m6 v A w : v6_dot (row_m6 v A) w = v6_dot v (m6_vec A w).
Proof. unfold row_m6, row_m63. tring. Qed.
Lemma dot_row_m46 v A w : v6_dot (row_m46 v A) w = v4_dot v (m46_vec A w).
Proof. unfold row_m46. tring. Qed.
Lemma dot_row_m43 v A w : v3_dot (row_m43 v A) w = v4_dot v (m43_vec A w).
Proof. kring. Qed.
Lemma dot_row_m4 v A w : v4_dot (row_m4 v A) w = v4_dot v (m4_vec A w).
Proof. kring. Qed.
Lemma dot_row_m34 v A w : v4_dot (row_m34 v A) w = v3_dot v (m34_vec A w).
Proof. kring. Qed.
Lemma v6_dot_add' v a b : v6_dot v a + v6_dot v b = v6_dot v (v6_add a b).
Proof. symmetry. apply v6_dot_add. Qed.
Lemma v4_dot_add' v a b : v4_dot v a + v4_dot v b = v4_dot v (v4_add a b).
Proof. symmetry. apply v4_dot_add. Qed.

Lemma good_rdv i : goodR (RDv i).
Proof.
  intros H. cbn [ok_r] in H. split; [ apply quat2r_SO3; exact H | ].
  exists (dq d i). split; [ | split ].
  - exact (quaternion_turns (vq th i) (dq d i)).
  - intros M r. cbn [jac_r applied coords]. rewrite ldot3. ring.
  - intros r. cbn [jac0_r applied coords]. rewrite ldot3, v3_at_row. ring.
Qed.
Lemma good_rmul l r : goodR l -> goodR r -> goodR (RMul l r).
Proof.
  intros IHl IHr H. cbn [ok_r] in H. destruct (IHl (proj1 H)) as (Sl & a & Da & Ja & Ja0).
  destruct (IHr (proj2 H)) as (Sr & b & Db & Jb & Jb0).
  split; [ apply SO3_mul; assumption | ].
  exists (v3_add a (m3_vec (value_r inv4 th l) b)). split; [ | split ].
  - eapply m3_derive_eq; [ exact (m3_mul_derive _ _ 0 _ _ Da Db) | ]. cbv beta. rewrite moved_0. cbn [value_r].
    generalize (SO3_cross _ b Sl). generalize (value_r inv4 th l), (value_r inv4 th r). intros A B E.
    transitivity (m3_sub (m3_scale (-1) (m3_mul (crossMx a) (m3_mul A B))) (m3_mul (m3_mul A (crossMx b)) B)).
    + clear. kring.
    + rewrite E. clear. kring.
  - intros M k. cbn [jac_r]. rewrite applied_app, Ja, Jb, dot_row_m3. kring.
  - intros k. cbn [jac0_r]. rewrite applied_app, Ja0, Jb, rows3_at, Rplus_comm, v3_at_add. reflexivity.
Qed.
Lemma good_rinv r : goodR r -> goodR (RInv r).
Proof.
  intros IHr H. cbn [ok_r] in H. destruct (IHr H) as (Sr & b & Db & Jb & Jb0).
  split; [ apply SO3_tr; exact Sr | ].
  exists (v3_neg (m3_vec (m3_tr (value_r inv4 th r)) b)). split; [ | split ].
  - eapply m3_derive_eq; [ exact (m3_derive_tr _ 0 _ Db) | ]. cbn [value_r].
    generalize (SO3_cross _ b (SO3_tr _ Sr)). generalize (value_r inv4 th r). intros A E.
    transitivity (m3_mul (m3_tr A) (crossMx b)).
    + clear. kring.
    + rewrite E. generalize (m3_vec (m3_tr A) b). clear. kring.
  - intros M k. cbn [jac_r]. rewrite Jb, dot_row_m3, v3_dot_neg. kring.
  - intros k. cbn [jac0_r]. rewrite Jb, v3_dot_neg, rows3_at, v3_at_neg. reflexivity.
Qed.
Lemma good_rtf t : goodT t -> goodR (RTf t).
Proof.
  intros IH H. cbn [ok_r] in H. destruct (IH H) as (St & Lt & w & D & Dt & Pt & Jt & Jt0).
  assert (SO : SO3 (value_r inv4 th (RTf t))).
  { change (SO3 (topLeft (value_t inv4 th t))). destruct St as (C & p & HR). apply rigid_rt in HR. destruct HR as [HR ->]. rewrite topLeft_rt. exact HR. }
  split; [ exact SO | ]. exists (tl3 w). split; [ | split ].
  - eapply m3_derive_eq; [ exact (topLeft_derive _ _ _ Dt) | ].
    change (value_r inv4 th (RTf t)) with (topLeft (value_t inv4 th t)).
    pose proof (SE3_affine _ St) as Af. rewrite (affine_rt _ Af) in Pt.
    revert Pt. generalize (topLeft (value_t inv4 th t)), (topRight (value_t inv4 th t)). clear. intros A p Pt.
    pose proof (Pt (V4 1 0 0 0)) as P0. pose proof (Pt (V4 0 1 0 0)) as P1. pose proof (Pt (V4 0 0 1 0)) as P2. clear Pt.
    destruct D as [ [ a0 b0 c0 d0 ] [ a1 b1 c1 d1 ] [ a2 b2 c2 d2 ] [ a3 b3 c3 d3 ] ], A as [ A00 A01 A02 A10 A11 A12 A20 A21 A22 ],
      p as [ u v z ], w as [ [ r0 r1 r2 ] [ f0 f1 f2 ] ].
    revert P0 P1 P2. tunf. intros P0 P1 P2.
    pose proof (f_equal q0 P0) as E00. pose proof (f_equal q1 P0) as E01. pose proof (f_equal q2 P0) as E02.
    pose proof (f_equal q0 P1) as E10. pose proof (f_equal q1 P1) as E11. pose proof (f_equal q2 P1) as E12.
    pose proof (f_equal q0 P2) as E20. pose proof (f_equal q1 P2) as E21. pose proof (f_equal q2 P2) as E22.
    clear P0 P1 P2. cbn [q0 q1 q2 q3] in *. f_equal; lra.
  - intros M k. change (jac_r inv3 inv4 th th (RTf t) M) with (jac_t inv3 inv4 th th t (fun k => row_m36 (M k) m3_zero m3_I)).
    rewrite Jt, dot_row_m36. f_equal. generalize (hd3 w), (tl3 w). intros [ ] [ ]. unfold m3_zero. kunf. f_equal; ring.
  - intros k. cbn [jac0_r]. rewrite Jt, rows36_at. f_equal. generalize (hd3 w), (tl3 w). kring.
Qed.

Notation jr := (jac_r inv3 inv4 th th).
Notation je := (jac_e inv3 inv4 th th).
Notation jt := (jac_t inv3 inv4 th th).
Notation jh := (jac_h inv3 inv4 th th).
Notation vr := (value_r inv4 th).
Notation ve := (value_e inv4 th).
Notation vt := (value_t inv4 th).
Notation vh' := (value_h inv4 th).

Lemma good_edv i : goodE (EDv i).
Proof.
  intros _. exists (dp d i). split; [ | split ].
  - exact (line_derive (vp th i) (dp d i)).
  - intros M r. cbn [jac_e applied coords]. rewrite ldot3. ring.
  - intros r. cbn [jac0_e applied coords]. rewrite ldot3, v3_at_row. ring.
Qed.
Lemma good_edir i : goodE (EDir i).
Proof.
  intros _. pose proof (direction_moves (fst (vd th i)) (snd (vd th i)) (fst (dd d i)) (snd (dd d i))) as H.
  destruct (vd th i) as [m C] eqn:E. cbn [fst snd] in H. cbn [goodE].
  exists (v3_scale m (v3_sub (v3_scale (snd (dd d i)) (m3_col1 C)) (v3_scale (fst (dd d i)) (m3_col0 C)))).
  assert (J : forall u, ldot (direction_row (m, C) u) [fst (dd d i); snd (dd d i)] =
    v3_dot u (v3_scale m (v3_sub (v3_scale (snd (dd d i)) (m3_col1 C)) (v3_scale (fst (dd d i)) (m3_col0 C))))).
  { intros u. generalize (fst (dd d i)), (snd (dd d i)). intros a b. destruct u as [u v w], C as [ a0 a1 a2 b0 b1 b2 c0 c1 c2 ].
    unfold direction_row. kunf. cbn [ldot fst snd]. kunf. ring. }
  split; [ | split ].
  - eapply v3_derive_ext_loc; [ | exact H ]. apply filter_forall. intros s. cbv beta.
    change (value_e inv4 (mv s) (EDir i)) with (direction_value (vd (mv s) i)).
    unfold moved, update, along. cbn [vd dd]. rewrite E. reflexivity.
  - intros M r. cbn [jac_e applied coords]. rewrite E, J. ring.
  - intros r. cbn [jac0_e applied coords]. rewrite E, J, v3_at_row. ring.
Qed.
Lemma good_econst p : goodE (EConst p).
Proof.
  intros _. exists v3_zero. split; [ | split ].
  - exact (v3_derive_const p 0).
  - intros M r. cbn [jac_e applied]. generalize (M r). intros [u v z]. unfold v3_zero. kunf. ring.
  - intros r. cbn [jac0_e applied]. revert r. apply at_cases; try reflexivity. intros r. rewrite v3_at_big. reflexivity.
Qed.
Lemma good_emul l r : goodR l -> goodE r -> goodE (EMul l r).
Proof.
  intros IHl IHr H. destruct (IHl (proj1 H)) as (Sl & a & Da & Ja & Ja0). destruct (IHr (proj2 H)) as (b & Db & Jb & Jb0).
  exists (v3_add (m3_vec (crossMx (m3_vec (vr l) (ve r))) a) (m3_vec (vr l) b)). split; [ | split ].
  - eapply v3_derive_eq; [ exact (m3_vec_derive _ _ 0 _ _ Da Db) | ]. cbv beta. rewrite moved_0.
    generalize (vr l), (ve r). kring.
  - intros M k.
    change (je (EMul l r) M) with (jr l (fun k => row_m3 (M k) (crossMx (m3_vec (vr l) (ve r)))) ++ je r (fun k => row_m3 (M k) (vr l))).
    rewrite applied_app, Ja, Jb, !dot_row_m3, dot_add. reflexivity.
  - intros k. cbn [jac0_e]. rewrite applied_app, Ja, Jb, !rows3_at, v3_at_add. reflexivity.
Qed.
Lemma good_emat l r : goodE r -> goodE (EMat l r).
Proof.
  intros IHr H. destruct (IHr H) as (b & Db & Jb & Jb0). destruct l as [i].
  pose proof (matrix_moves (vm th i) (vsel th i) (dm d i)) as HM.
  exists (v3_add (m3_vec (matrix_step (vsel th i) (dm d i)) (ve r)) (m3_vec (vm th i) b)).
  assert (J : forall u p, v9_dot (row_m39 u p) (matrix_step (vsel th i) (dm d i)) =
     v3_dot u (m3_vec (matrix_step (vsel th i) (dm d i)) p)).
  { intros u p. generalize (matrix_step (vsel th i) (dm d i)). intros A. destruct A as [ a0 a1 a2 b0 b1 b2 c0 c1 c2 ], u as [ u v w ], p as [ f g h ].
    unfold v9_dot, row_m39. cbn [g0 g1 g2]. kunf. ring. }
  split; [ | split ].
  - eapply v3_derive_eq; [ exact (m3_vec_derive (fun s => value_m (mv s) (MDv i)) _ 0 _ _ HM Db) | ]. cbv beta. rewrite moved_0.
    reflexivity.
  - intros M k.
    change (je (EMat (MDv i) r) M) with (jac_m th (MDv i) (fun k => row_m39 (M k) (ve r)) ++ je r (fun k => row_m3 (M k) (vm th i))).
    rewrite applied_app, jac_m_applied, Jb, J, dot_row_m3, dot_add. reflexivity.
  - intros k. cbn [jac0_e value_m]. rewrite applied_app, jac_m_applied, Jb, J, v3_at_row, rows3_at, v3_at_add. reflexivity.
Qed.
Lemma good_ecross l r : goodE l -> goodE r -> goodE (ECross l r).
Proof.
  intros IHl IHr H. destruct (IHl (proj1 H)) as (a & Da & Ja & Ja0). destruct (IHr (proj2 H)) as (b & Db & Jb & Jb0).
  exists (v3_sub (m3_vec (crossMx (ve l)) b) (m3_vec (crossMx (ve r)) a)). split; [ | split ].
  - assert (Dc : m3_derive (fun s => crossMx (value_e inv4 (mv s) l)) 0 (crossMx a)).
    { destruct Da as (A0 & A1 & A2). unfold m3_derive, crossMx. cbn [m00 m01 m02 m10 m11 m12 m20 m21 m22].
      pose proof (@is_derive_const R_AbsRing R_NormedModule 0 0) as Z.
      pose proof (@is_derive_opp R_AbsRing R_NormedModule _ 0 _ A0). pose proof (@is_derive_opp R_AbsRing R_NormedModule _ 0 _ A1).
      pose proof (@is_derive_opp R_AbsRing R_NormedModule _ 0 _ A2). tauto. }
    eapply v3_derive_eq; [ exact (m3_vec_derive _ _ 0 _ _ Dc Db) | ]. cbv beta. rewrite moved_0.
    generalize (ve l), (ve r). kring.
  - intros M k.
    change (je (ECross l r) M) with (je l (fun k => row_m3 (v3_neg (M k)) (crossMx (ve r))) ++ je r (fun k => row_m3 (M k) (crossMx (ve l)))).
    rewrite applied_app, Ja, Jb, !dot_row_m3, v3_dot_neg. generalize (m3_vec (crossMx (ve l)) b), (m3_vec (crossMx (ve r)) a), (M k). kring.
  - intros k. cbn [jac0_e]. rewrite applied_app, Ja, Jb, v3_dot_neg, !rows3_at, v3_at_neg, v3_at_add. f_equal.
    generalize (m3_vec (crossMx (ve l)) b), (m3_vec (crossMx (ve r)) a). kring.
Qed.
Lemma good_eadd l r : goodE l -> goodE r -> goodE (EAdd l r).
Proof.
  intros IHl IHr H. destruct (IHl (proj1 H)) as (a & Da & Ja & Ja0). destruct (IHr (proj2 H)) as (b & Db & Jb & Jb0).
  exists (v3_add a b). split; [ exact (v3_derive_add _ _ 0 _ _ Da Db) | split ].
  - intros M k. cbn [jac_e]. rewrite applied_app, Ja, Jb, dot_add. reflexivity.
  - intros k. cbn [jac0_e]. rewrite applied_app, Ja0, Jb0, v3_at_add. reflexivity.
Qed.
Lemma good_esub l r : goodE l -> goodE r -> goodE (ESub l r).
Proof.
  intros IHl IHr H. destruct (IHl (proj1 H)) as (a & Da & Ja & Ja0). destruct (IHr (proj2 H)) as (b & Db & Jb & Jb0).
  exists (v3_sub a b). split; [ exact (v3_derive_sub _ _ 0 _ _ Da Db) | split ].
  - intros M k. cbn [jac_e]. rewrite applied_app, Ja, Jb, v3_dot_neg. generalize (M k). kring.
  - intros k. cbn [jac0_e]. rewrite applied_app, Ja0, Jb, v3_dot_neg, v3_at_row, v3_at_neg, v3_at_add. reflexivity.
Qed.
Lemma good_esubv l p : goodE l -> goodE (ESubV l p).
Proof.
  intros IHl H. destruct (IHl H) as (a & Da & Ja & Ja0).
  exists a. split; [ | split ].
  - eapply v3_derive_eq; [ exact (v3_derive_sub _ _ 0 _ _ Da (v3_derive_const p 0)) | kring ].
  - intros M k. exact (Ja M k).
  - intros k. exact (Ja0 k).
Qed.
Lemma good_eneg l : goodE l -> goodE (ENeg l).
Proof.
  intros IHl H. destruct (IHl H) as (a & Da & Ja & Ja0).
  exists (v3_neg a). split; [ exact (v3_derive_neg _ 0 _ Da) | split ].
  - intros M k. cbn [jac_e]. rewrite Ja, v3_dot_neg. generalize (M k). kring.
  - intros k. cbn [jac0_e]. rewrite Ja, v3_dot_neg, v3_at_row, v3_at_neg. reflexivity.
Qed.
Lemma good_escale p s : goodE p -> goodE (EScale p s).
Proof.
  intros IHp H. destruct (IHp (proj1 H)) as (a & Da & Ja & Ja0). destruct (scalars s (proj2 H)) as (b & Db & Jb & Jb0).
  exists (v3_add (v3_scale b (ve p)) (v3_scale (value_s th s) a)). split; [ | split ].
  - eapply v3_derive_eq; [ exact (v3_derive_scale _ _ 0 _ _ Db Da) | ]. cbv beta. rewrite moved_0. reflexivity.
  - intros M k.
    change (je (EScale p s) M) with (je p (fun k => v3_scale (value_s th s) (M k)) ++ jac_s th s (fun k => v3_dot (M k) (ve p))).
    rewrite applied_app, Ja, Jb. generalize (value_s th s), (ve p), (M k). kring.
  - intros k. cbn [jac0_e]. rewrite applied_app, Ja, Jb. rewrite rows3_at, Rplus_comm.
    replace (v3_at (ve p) k * b) with (v3_at (v3_scale b (ve p)) k).
    2:{ revert k. apply at_cases; try (intros r; rewrite !v3_at_big; ring); destruct (ve p); unfold v3_at, v3_list; kunf; cbn [nth]; ring. }
    rewrite v3_at_add. do 2 f_equal. kring.
Qed.
Lemma good_etrans t : goodT t -> goodE (ETrans t).
Proof.
  intros IH H. destruct (IH H) as (St & Lt & w & D & Dt & Pt & Jt & Jt0).
  exists (v3_add (hd3 w) (m3_vec (crossMx (topRight (vt t))) (tl3 w))). split; [ | split ].
  - eapply v3_derive_eq; [ exact (topRight_derive _ _ _ Dt) | ].
    pose proof (SE3_affine _ St) as Af. rewrite (affine_rt _ Af) in Pt.
    revert Pt. generalize (topLeft (vt t)), (topRight (vt t)). clear. intros A p Pt.
    pose proof (Pt (V4 0 0 0 1)) as P0. clear Pt.
    destruct D as [ [ a0 b0 c0 d0 ] [ a1 b1 c1 d1 ] [ a2 b2 c2 d2 ] [ a3 b3 c3 d3 ] ], A as [ A00 A01 A02 A10 A11 A12 A20 A21 A22 ],
      p as [ u v z ], w as [ [ r0 r1 r2 ] [ f0 f1 f2 ] ].
    revert P0. tunf. intros P0.
    pose proof (f_equal q0 P0) as E00. pose proof (f_equal q1 P0) as E01. pose proof (f_equal q2 P0) as E02.
    clear P0. cbn [q0 q1 q2 q3] in *. f_equal; lra.
  - intros M k.
    change (je (ETrans t) M) with (jt t (fun k => row_m36 (M k) m3_I (crossMx (topRight (vt t))))).
    rewrite Jt, dot_row_m36. f_equal. generalize (hd3 w), (tl3 w), (topRight (vt t)). kring.
  - intros k. cbn [jac0_e]. rewrite Jt, rows36_at. f_equal. generalize (hd3 w), (tl3 w), (topRight (vt t)). kring.
Qed.
Lemma good_epar K r : goodR r -> goodE (EPar K r).
Proof.
  intros IH (Hr & N & Ch). destruct (IH Hr) as (Sr & w & Dr & Jr & Jr0).
  assert (T : turning (fun s => value_r inv4 (mv s) r) w).
  { unfold turning. rewrite moved_0. exact Dr. }
  assert (E0 : value_r inv4 (mv 0) r = vr r) by (rewrite moved_0; reflexivity).
  destruct (Ch (fun s => value_r inv4 (mv s) r) w E0 T) as (pd & Dp & Sp).
  assert (Ip : m3_vec (inv3 (kS K (kP K (vr r)))) w = pd).
  { rewrite <- Sp. destruct (I3 _ N) as [_ L]. revert L. generalize (inv3 (kS K (kP K (vr r)))). intros A. generalize (kS K (kP K (vr r))).
    intros B L. transitivity (m3_vec (m3_mul A B) pd); [ | rewrite L ]; kring. }
  exists pd. split; [ exact Dp | split ].
  - intros M k. change (je (EPar K r) M) with (jr r (fun k => row_m3 (M k) (inv3 (kS K (kP K (vr r)))))).
    rewrite Jr, dot_row_m3, Ip. reflexivity.
  - intros k. cbn [jac0_e]. rewrite Jr, rows3_at, Ip. reflexivity.
Qed.
Lemma good_ehom h : goodH h -> goodE (EHom h).
Proof.
  intros IH (Hh & N). destruct (IH Hh) as (w & Dw & Jw & Jw0).
  exists (m34_vec (snd (fromHomogeneous (vh' h))) w). split; [ | split ].
  - eapply v3_derive_eq; [ apply (fromHomogeneous_derive _ 0 _ Dw); rewrite moved_0; exact N | ]. cbv beta. rewrite moved_0. reflexivity.
  - intros M k. change (je (EHom h) M) with (jh h (fun k => row_m34 (M k) (snd (fromHomogeneous (vh' h))))).
    rewrite Jw, dot_row_m34. reflexivity.
  - intros k. cbn [jac0_e]. rewrite Jw, rows34_at. reflexivity.
Qed.
Lemma good_eelem l r : goodE l -> goodE r -> goodE (EElem l r).
Proof.
  intros IHl IHr H. destruct (IHl (proj1 H)) as (a & Da & Ja & Ja0). destruct (IHr (proj2 H)) as (b & Db & Jb & Jb0).
  exists (v3_add (m3_vec (v3_diag (ve r)) a) (m3_vec (v3_diag (ve l)) b)). split; [ | split ].
  - assert (Dc : m3_derive (fun s => v3_diag (value_e inv4 (mv s) l)) 0 (v3_diag a)).
    { destruct Da as (A0 & A1 & A2). unfold m3_derive, v3_diag. cbn [m00 m01 m02 m10 m11 m12 m20 m21 m22].
      pose proof (@is_derive_const R_AbsRing R_NormedModule 0 0) as Z. tauto. }
    eapply v3_derive_eq; [ exact (m3_vec_derive _ _ 0 _ _ Dc Db) | ]. cbv beta. rewrite moved_0.
    generalize (ve l), (ve r). unfold v3_diag. kring.
  - intros M k.
    change (je (EElem l r) M) with (je l (fun k => row_m3 (M k) (v3_diag (ve r))) ++ je r (fun k => row_m3 (M k) (v3_diag (ve l)))).
    rewrite applied_app, Ja, Jb, !dot_row_m3, dot_add. reflexivity.
  - intros k. cbn [jac0_e]. rewrite applied_app, Ja, Jb, !rows3_at, v3_at_add. reflexivity.
Qed.

Lemma good_tbasic r t : goodR r -> goodE t -> goodT (TBasic r t).
Proof.
  intros IHr IHt H. destruct (IHr (proj1 H)) as (Sr & w & Dr & Jr & Jr0). destruct (IHt (proj2 H)) as (b & Db & Jb & Jb0).
  split; [ | split ].
  - exists (vr r), (ve t). apply rigid_rt. split; [ exact Sr | reflexivity ].
  - apply filter_forall. intros s. reflexivity.
  - exists (V6 (v3_add (m3_vec (m3_neg (crossMx (ve t))) w) b) w). eexists. split; [ exact (rt_derive _ _ 0 _ _ Dr Db) | split; [ | split ] ].
    + intros p. change (vt (TBasic r t)) with (rt (vr r) (ve t)). generalize (vr r), (ve t). intros A u.
      destruct A as [ A00 A01 A02 A10 A11 A12 A20 A21 A22 ], u as [ u v z ], p as [ a0 a1 a2 a3 ], w as [ f0 f1 f2 ], b as [ b0 b1 b2 ].
      unfold m3_neg. tunf. f_equal; ring.
    + intros M k.
      change (jt (TBasic r t) M) with (jr r (fun k => row_m63 (M k) (m3_neg (crossMx (ve t))) m3_I) ++ je t (fun k => row_m63 (M k) m3_I m3_zero)).
      rewrite applied_app, Jr, Jb, !dot_row_m63, v6_dot_add'. f_equal. unfold v6_add. cbn [hd3 tl3].
      generalize (m3_vec (m3_neg (crossMx (ve t))) w). intros x. f_equal; kring.
    + intros k. cbn [jac0_t]. rewrite applied_app, Jr, Jb, !rows63_at, v6_at_add. f_equal. unfold v6_add. cbn [hd3 tl3].
      generalize (m3_vec (m3_neg (crossMx (ve t))) w). intros x. f_equal; kring.
Qed.
Lemma good_tmul l r : goodT l -> goodT r -> goodT (TMul l r).
Proof.
  intros IHl IHr H. destruct (IHl (proj1 H)) as (Sl & Ll & a & A & DA & PA & Ja & Ja0).
  destruct (IHr (proj2 H)) as (Sr & Lr & b & B & DB & PB & Jb & Jb0).
  split; [ | split ].
  - destruct Sl as (C & t & HC). destruct Sr as (C' & t' & HC').
    apply rigid_rt in HC. apply rigid_rt in HC'. destruct HC as [HC EC]. destruct HC' as [HC' EC'].
    change (SE3 (m4_mul (vt l) (vt r))). rewrite EC, EC', rt_mul. eexists. eexists. apply rigid_rt. split; [ | reflexivity ].
    apply SO3_mul; assumption.
  - eapply filter_imp; [ | exact (filter_and _ _ Ll Lr) ]. cbv beta. intros s [X Y].
    exact (affine_mul _ _ X Y).
  - assert (QA : perturbed (fun s => value_t inv4 (mv s) l) 0 a).
    { exists A. split; [ exact DA | ]. rewrite moved_0. exact PA. }
    assert (QB : perturbed (fun s => value_t inv4 (mv s) r) 0 b).
    { exists B. split; [ exact DB | ]. rewrite moved_0. exact PB. }
    assert (S0 : SE3 (value_t inv4 (mv 0) l)) by (rewrite moved_0; exact Sl).
    destruct (perturbed_product _ _ 0 a b S0 QA QB) as (D & DD & PD). rewrite moved_0 in PD.
    exists (v6_add a (m6_vec (boxTimes (vt l)) b)), D. split; [ exact DD | split; [ exact PD | split ] ].
    + intros M k. change (jt (TMul l r) M) with (jt r (fun k => row_m6 (M k) (boxTimes (vt l))) ++ jt l M).
      rewrite applied_app, Ja, Jb, dot_row_m6, Rplus_comm, v6_dot_add'. reflexivity.
    + intros k. cbn [jac0_t]. rewrite applied_app, Ja0, Jb, rows66_at, Rplus_comm, v6_at_add. reflexivity.
Qed.
Lemma good_tinv t : goodT t -> goodT (TInv t).
Proof.
  intros IH H. destruct (IH H) as (St & Lt & w & D & Dt & Pt & Jt & Jt0).
  assert (S0 : SE3 (value_t inv4 (mv 0) t)) by (rewrite moved_0; exact St).
  assert (P0 : forall p, m4_vec D p = twist w (m4_vec (value_t inv4 (mv 0) t) p)) by (rewrite moved_0; exact Pt).
  destruct (inverse_moves inv4 _ D w I4 S0 Lt Dt P0) as (Si & Li & D' & DD & PD). rewrite moved_0 in Si, PD.
  split; [ exact Si | split; [ exact Li | ] ].
  eexists. exists D'. split; [ exact DD | split; [ exact PD | split ] ].
  - intros M k. change (jt (TInv t) M) with (jt t (fun k => row_m6 (M k) (m6_neg (boxTimes (inv4 (vt t)))))).
    rewrite Jt, dot_row_m6. reflexivity.
  - intros k. cbn [jac0_t]. rewrite Jt, rows66_at. reflexivity.
Qed.
Lemma good_tconst T : goodT (TConst T).
Proof.
  intros H. split; [ exact H | split ].
  - apply filter_forall. intros s. exact (SE3_affine _ H).
  - exists (V6 v3_zero v3_zero), (M4 v4_zero v4_zero v4_zero v4_zero). split; [ | split; [ | split ] ].
    + split; [ exact (v4_const_derive (r40 T) 0) | split; [ exact (v4_const_derive (r41 T) 0) | split;
        [ exact (v4_const_derive (r42 T) 0) | exact (v4_const_derive (r43 T) 0) ] ] ].
    + intros p. change (vt (TConst T)) with T. unfold v3_zero, v4_zero. generalize (m4_vec T p). intros u. destruct T as [ [ a0 b0 c0 d0 ] [ a1 b1 c1 d1 ] [ a2 b2 c2 d2 ] [ a3 b3 c3 d3 ] ], p as [ p0 p1 p2 p3 ], u as [ u0 u1 u2 u3 ].
      tunf. f_equal; ring.
    + intros M r. cbn [jac_t applied]. destruct (M r) as [ [ a b c ] [ e f g ] ]. unfold v3_zero. tunf. ring.
    + intros r. cbn [jac0_t applied]. unfold v6_at. cbn [hd3 tl3]. unfold v3_at, v3_list, v3_zero. cbn [x0 x1 x2].
      destruct (r <? 3)%nat; [ destruct r as [ | [ | [ | [ | r ] ] ] ]; reflexivity | ].
      destruct (r - 3)%nat as [ | [ | [ | [ | j ] ] ] ]; reflexivity.
Qed.
Lemma good_hdv i : goodH (HDv i).
Proof.
  intros _. exists (m43_vec (quatInvS (vh th i)) (dh d i)). split; [ | split ].
  - pose proof (update_derive (vh th i) (dh d i)) as H. rewrite jacobian_invS in H. exact H.
  - intros M r. cbn [jac_h applied coords]. rewrite ldot3, dot_row_m43. ring.
  - intros r. cbn [jac0_h applied coords]. rewrite ldot3, rows43_at. ring.
Qed.
Lemma good_hconst p : goodH (HConst p).
Proof.
  intros _. exists v4_zero. split; [ | split ].
  - exact (v4_const_derive p 0).
  - intros M r. cbn [jac_h applied]. generalize (M r). intros [ a b c e ]. unfold v4_zero. kunf. ring.
  - intros r. cbn [jac0_h applied]. destruct r as [ | [ | [ | [ | r ] ] ] ]; reflexivity.
Qed.
Lemma good_hmul l r : goodT l -> goodH r -> goodH (HMul l r).
Proof.
  intros IHl IHr H. destruct (IHl (proj1 H)) as (Sl & Ll & a & A & DA & PA & Ja & Ja0).
  destruct (IHr (proj2 H)) as (b & Db & Jb & Jb0).
  exists (v4_add (m46_vec (boxMinus (m4_vec (vt l) (vh' r))) a) (m4_vec (vt l) b)). split; [ | split ].
  - eapply v4_derive_eq; [ exact (m4_vec_derive _ _ 0 _ _ DA Db) | ]. cbv beta. rewrite moved_0. f_equal.
    rewrite PA. generalize (m4_vec (vt l) (vh' r)). tring.
  - intros M k.
    change (jh (HMul l r) M) with (jt l (fun k => row_m46 (M k) (boxMinus (m4_vec (vt l) (vh' r)))) ++ jh r (fun k => row_m4 (M k) (vt l))).
    rewrite applied_app, Ja, Jb, dot_row_m46, dot_row_m4, v4_dot_add'. reflexivity.
  - intros k. cbn [jac0_h]. rewrite applied_app, Ja, Jb, rows46_at, rows4_at, v4_at_add. reflexivity.
Qed.
Lemma good_heuc e : goodE e -> goodH (HEuc e).
Proof.
  intros IH H. destruct (IH H) as (b & Db & Jb & Jb0).
  exists (m43_vec I43 b). split; [ | split ].
  - destruct Db as (A0 & A1 & A2). pose proof (@is_derive_const R_AbsRing R_NormedModule 1 0) as Z.
    assert (E : m43_vec I43 b = V4 (x0 b) (x1 b) (x2 b) 0).
    { destruct b as [ b0 b1 b2 ]. unfold I43. kunf. f_equal; ring. }
    rewrite E. unfold v4_derive. cbn [q0 q1 q2 q3]. split; [ exact A0 | split; [ exact A1 | split; [ exact A2 | exact Z ] ] ].
  - intros M k. change (jh (HEuc e) M) with (je e (fun k => row_m43 (M k) I43)). rewrite Jb, dot_row_m43. reflexivity.
  - intros k. cbn [jac0_h]. rewrite Jb, rows43_at. reflexivity.
Qed.

Theorem expressions : (forall e, goodR e) /\ (forall e, goodE e) /\ (forall e, goodT e) /\ (forall e, goodH e).
Proof using I3 I4.
  apply exp_mut.
  - exact good_rdv.
  - intros l Hl r Hr. exact (good_rmul l r Hl Hr).
  - exact good_rinv.
  - exact good_rtf.
  - exact good_edv.
  - exact good_edir.
  - exact good_econst.
  - intros l Hl r Hr. exact (good_emul l r Hl Hr).
  - intros l r Hr. exact (good_emat l r Hr).
  - intros l Hl r Hr. exact (good_ecross l r Hl Hr).
  - intros l Hl r Hr. exact (good_eadd l r Hl Hr).
  - intros l Hl r Hr. exact (good_esub l r Hl Hr).
  - intros e H p. exact (good_esubv e p H).
  - exact good_eneg.
  - intros e H s. exact (good_escale e s H).
  - exact good_etrans.
  - exact good_epar.
  - exact good_ehom.
  - intros l Hl r Hr. exact (good_eelem l r Hl Hr).
  - intros r Hr t Ht. exact (good_tbasic r t Hr Ht).
  - intros l Hl r Hr. exact (good_tmul l r Hl Hr).
  - exact good_tinv.
  - exact good_tconst.
  - exact good_hdv.
  - exact good_hconst.
  - intros l Hl r Hr. exact (good_hmul l r Hl Hr).
  - exact good_heuc.
Qed.
End Main.
