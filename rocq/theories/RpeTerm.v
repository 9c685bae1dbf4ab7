(** * The Jacobians of the reprojection error *)
From Coquelicot Require Import Coquelicot.
From Coq Require Import Reals List Lra Lia Arith.
From Verif Require Import Base KinModel KinSpec KinCurve KinProofs TfModel ExprModel ExprSpec ExprProofs ExprMain ExprProps DistModel DistSpec DistProofs DistUndist
  PinModel CamSpec PinProofs RpeModel RpeSpec RpeProofs.
Import ListNotations.
Local Open Scope R_scope.

Lemma regular_facing c ph : regular c ph -> length (c_intr c) = projection_dim (c_model c) /\
  length (c_dist c) = distortion_dim (c_model c) /\ q3 ph <> 0 /\ smooth_at (c_model c) (c_intr c) (c_dist c) (facing ph).
Proof.
  intros (A & B & N & P & Z). split; [ exact A | split; [ exact B | split; [ exact Z | ] ] ].
  unfold facing. destruct (Rlt_dec (q3 ph) 0) as [ X | X ]; [ exact (N X) | ]. apply P. lra.
Qed.

Section Term.
Variable inv3 : m3 -> m3.
Variable inv4 : m4 -> m4.
Hypothesis I3 : inverts3 inv3.
Hypothesis I4 : inverts4 inv4.

Lemma term_jacobians th c t : ok_h inv4 th (t_point t) -> regular c (value_h inv4 th (t_point t)) ->
  exists e cost j, evaluate_error inv4 th c t = Val (e, cost) /\ evaluate_jacobians inv3 inv4 th c t = Val j /\
    simple_jacobians inv3 inv4 th c t = Val (j_point j) /\
    (forall d, v2_rderive (fun s => error_of (evaluate_error inv4 (moved th d s) c t)) 0
       (V2 (applied (j_point j) d 0) (applied (j_point j) d 1))) /\
    (c_pactive c = true -> forall dk, length dk = projection_dim (c_model c) ->
       v2_rderive (fun s => error_of (evaluate_error inv4 th (with_intr c (stepped (c_intr c) dk s)) t)) 0
         (V2 (camera_applied (j_camera j) dk [] 0) (camera_applied (j_camera j) dk [] 1))) /\
    (c_dactive c = true -> forall dd, length dd = distortion_dim (c_model c) ->
       v2_rderive (fun s => error_of (evaluate_error inv4 th (with_dist c (stepped (c_dist c) dd s)) t)) 0
         (V2 (camera_applied (j_camera j) [] dd 0) (camera_applied (j_camera j) [] dd 1))) /\
    listed c (j_camera j).
Proof.
  intros OK REG. destruct (regular_facing _ _ REG) as (LK & LD & NZ & SM).
  destruct (camera_at (c_width c) (c_height c) _ _ _ _ LD NZ SM) as ((y & EY) & (J & EJ & HJ) & (ci & EI & (LI & HI)) & (cd & ED & (LCD & HD))).
  assert (EC : camera_jacobians c (value_h inv4 th (t_point t)) =
    Val ((if c_pactive c then [(ProjectionDv, neg_cols ci)] else []) ++ (if c_dactive c then [(DistortionDv, neg_cols cd)] else []))).
  { unfold camera_jacobians. rewrite EI, ED. destruct (c_pactive c), (c_dactive c); reflexivity. }
  do 3 eexists. split; [ | split; [ | split; [ | split; [ | split; [ | split ] ] ] ] ].
  - unfold evaluate_error, predicted, camera_image. rewrite EY. cbn [rbind]. reflexivity.
  - unfold evaluate_jacobians. cbv zeta. rewrite EJ. cbn [rbind]. rewrite EC. cbn [rbind]. reflexivity.
  - unfold simple_jacobians. cbv zeta. rewrite EJ. reflexivity.
  - intros d. cbn [j_point]. destruct (C70_homogeneous inv3 inv4 th d _ I3 I4 OK) as (w & D & AP & _).
    rewrite !AP. assert (E0 : value_h inv4 (moved th d 0) (t_point t) = value_h inv4 th (t_point t)) by (rewrite moved_0; reflexivity).
    assert (Q := HJ (fun s => value_h inv4 (moved th d s) (t_point t)) w E0 D). rewrite neg_row_dot in Q.
    eapply v2_rderive_eq; [ | exact (error_derive _ (t_y t) (t_invR t) _ Q) ]. cbn [u0 u1]. f_equal; ring.
  - intros AC dk L. cbn [j_camera]. rewrite AC. rewrite <- LK in L.
    assert (HI' := HI (stepped (c_intr c) dk) 0 dk). rewrite <- LK in HI'.
    assert (Q := HI' (fun i H => stepped_0 _ _ i L H) (stepped_derive _ _ L)).
    rewrite neg_cols_dot in Q. eapply v2_rderive_eq; [ | exact (error_derive _ (t_y t) (t_invR t) _ Q) ]. cbn [u0 u1].
    assert (Z : forall l : list R, ldot l [] = 0) by (intros [ | ]; reflexivity).
    destruct (c_dactive c); cbn [app camera_applied]; rewrite ?Z; f_equal; ring.
  - intros AC dd L. cbn [j_camera]. rewrite AC. rewrite <- LD in L.
    assert (HD' := HD (stepped (c_dist c) dd) 0 dd). rewrite <- LD in HD'.
    assert (Q := HD' (fun i H => stepped_0 _ _ i L H) (stepped_derive _ _ L)).
    rewrite neg_cols_dot in Q. eapply v2_rderive_eq; [ | exact (error_derive _ (t_y t) (t_invR t) _ Q) ]. cbn [u0 u1].
    assert (Z : forall l : list R, ldot l [] = 0) by (intros [ | ]; reflexivity).
    destruct (c_pactive c); cbn [app camera_applied]; rewrite ?Z; f_equal; ring.
  - cbn [j_camera]. intros v row H. apply in_app_or in H. destruct H as [ H | H ].
    + destruct (c_pactive c); [ | contradiction ]. destruct H as [ H | [ ] ]. left.
      assert (v = ProjectionDv) by congruence. assert (E : neg_cols ci = row) by congruence. subst v row.
      split; [ reflexivity | split; [ reflexivity | ] ]. intros r. unfold neg_cols. rewrite map_length. exact LI.
    + destruct (c_dactive c); [ | contradiction ]. destruct H as [ H | [ ] ]. right.
      assert (v = DistortionDv) by congruence. assert (E : neg_cols cd = row) by congruence. subst v row.
      split; [ reflexivity | split; [ reflexivity | ] ]. intros r. unfold neg_cols. rewrite map_length. exact LCD.
Qed.
End Term.

(** ** The cost *)
Lemma quadratic_derive (p q : R -> R) a b d w0 w1 : is_derive p 0 w0 -> is_derive q 0 w1 ->
  is_derive (fun s => p s * (a * p s + b * q s) + q s * (b * p s + d * q s)) 0
    (2 * (p 0 * (a * w0 + b * w1) + q 0 * (b * w0 + d * w1))).
Proof.
  intros A B. assert (EP : ex_derive p 0) by (exists w0; exact A). assert (EQ : ex_derive q 0) by (exists w1; exact B).
  auto_derive; [ tauto | ]. replace (Derive (fun x => p x) 0) with w0 by (symmetry; exact (is_derive_unique _ _ _ A)).
  replace (Derive (fun x => q x) 0) with w1 by (symmetry; exact (is_derive_unique _ _ _ B)).
  match goal with |- ?a = ?b => change (@eq R a b) end. ring.
Qed.
Lemma cost_derive (f : R -> res v2) (y : v2) (M : m2) w e : n01 M = n10 M ->
  let F s := rbind (f s) (fun h => let e := v2_sub y h in Val (e, v2_dot e (m2_vec M e))) in
  error_of (F 0) = Val e -> v2_rderive (fun s => error_of (F s)) 0 w ->
  r_rderive (fun s => cost_of (F s)) (2 * v2_dot e (m2_vec M w)).
Proof.
  intros SY F E (g & L & A & B). exists (fun s => v2_dot (g s) (m2_vec M (g s))). split.
  - eapply filter_imp; [ | exact L ]. intros s. unfold F. destruct (f s); cbn [rbind error_of cost_of fst snd]; try discriminate.
    cbv zeta. intros Q. injection Q as Q. rewrite Q. reflexivity.
  - assert (G0 := locally_singleton _ _ L). cbv beta in G0. rewrite E in G0. assert (G : g 0 = e) by congruence.
    rewrite <- G. destruct M as [ a b c d ], w as [ w0 w1 ]. cbn [n01 n10 u0 u1] in *. subst c.
    unfold v2_dot, m2_vec. cbn [n00 n01 n10 n11 u0 u1]. exact (quadratic_derive (fun s => u0 (g s)) (fun s => u1 (g s)) a b d w0 w1 A B).
Qed.

(** ** The adapter *)
Lemma vadd_length a b : length b = length a -> length (vadd a b) = length a.
Proof. revert b. induction a as [ | x a IH ]; intros [ | y b ] L; cbn in *; try lia. rewrite IH; lia. Qed.
Lemma vadd_nth a b i : length b = length a -> (i < length a)%nat -> nth i (vadd a b) 0 = nth i a 0 + nth i b 0.
Proof. revert b i. induction a as [ | x a IH ]; intros [ | y b ] [ | i ] L H; cbn in *; try lia; try reflexivity. apply IH; lia. Qed.

Definition sized (n : nat) (o : adapter_op) : Prop := match o with AUpdate dp => length dp = n | ARevert => True | ASet v => length v = n end.
Definition held (n : nat) (a : adapter) : Prop := length (a_value a) = n /\ (a_backup a = [] \/ length (a_backup a) = n).
Lemma adapter_step_held n a o b : held n a -> adapter_step n a o = Ok b -> held n b.
Proof.
  intros (L & B). destruct o as [ dp | | v ]; cbn [adapter_step].
  - destruct (length dp <? n)%nat eqn:E; [ discriminate | ]. apply Nat.ltb_ge in E. intros Q. injection Q as <-.
    assert (F : length (firstn n dp) = n) by (rewrite firstn_length; lia). split; cbn [a_value a_backup]; [ | right; exact L ].
    rewrite vadd_length; lia.
  - destruct (length (a_backup a) <? n)%nat eqn:E; [ discriminate | ]. apply Nat.ltb_ge in E. intros Q. injection Q as <-.
    split; cbn [a_value a_backup]; [ rewrite firstn_length; lia | exact B ].
  - destruct (length v <? n)%nat eqn:E; [ discriminate | ]. apply Nat.ltb_ge in E. intros Q. injection Q as <-.
    split; cbn [a_value a_backup]; [ rewrite firstn_length; lia | right; exact L ].
Qed.
Lemma adapter_run_held n ops : forall a b, held n a -> adapter_run n a ops = Ok b -> held n b.
Proof.
  induction ops as [ | o ops IH ]; intros a b H E; cbn [adapter_run] in E; [ congruence | ].
  destruct (adapter_step n a o) as [ a' | | | ] eqn:S; cbn [obind] in E; try discriminate.
  exact (IH _ _ (adapter_step_held _ _ _ _ H S) E).
Qed.
Lemma adapter_run_app n p : forall a q, adapter_run n a (p ++ q) = (do b <- adapter_run n a p; adapter_run n b q).
Proof. induction p as [ | o p IH ]; intros a q; [ reflexivity | ]. cbn [app adapter_run]. destruct (adapter_step n a o); cbn [obind]; [ apply IH | | | ]; reflexivity. Qed.
Lemma reverts n : forall k x b, length b = n -> adapter_run n (Adapter x b) (repeat ARevert (S k)) = Ok (Adapter b b).
Proof.
  induction k as [ | k IH ]; intros x b L; cbn [repeat adapter_run adapter_step a_backup].
  - rewrite L, Nat.ltb_irrefl. cbn [obind]. rewrite firstn_all2 by lia. reflexivity.
  - rewrite L, Nat.ltb_irrefl. cbn [obind]. rewrite firstn_all2 by lia. apply (IH b b L).
Qed.
Lemma backed n : forall ops a, held n a -> length (a_backup a) = n -> Forall (sized n) ops -> exists b, adapter_run n a ops = Ok b.
Proof.
  induction ops as [ | o ops IH ]; intros a H B F; [ exists a; reflexivity | ]. inversion F as [ | ? ? S F' ]; subst.
  assert (Q : exists a', adapter_step (length (a_backup a)) a o = Ok a' /\ length (a_backup a') = length (a_backup a)).
  { destruct o as [ dp | | v ]; cbn [adapter_step sized] in *; rewrite ?S, Nat.ltb_irrefl; eexists; (split; [ reflexivity | ]); cbn [a_backup]; try reflexivity; exact (proj1 H). }
  destruct Q as (a' & E & B'). cbn [adapter_run]. rewrite E. cbn [obind].
  apply IH; [ exact (adapter_step_held _ _ _ _ H E) | exact B' | exact F' ].
Qed.
