(** * C81: reprojection errors and the camera as a design variable *)
From Coquelicot Require Import Coquelicot.
From Coq Require Import Reals List Lra Lia Arith ZArith.
From Verif Require Import Base KinModel KinSpec KinCurve KinProofs TfModel ExprModel ExprSpec ExprProofs ExprProps DistModel DistSpec
  TfProofs PinModel CamSpec OmniModel EucmModel EucmSpec DsModel DsSpec RpeModel RpeSpec RpeProofs RpeTerm.
Import ListNotations.
Local Open Scope R_scope.

(** Every error a camera forms of a point is the measurement minus the image, and
    the returned value is its square in the norm of the inverse covariance. *)
Theorem C81_error inv4 th c t e cost : evaluate_error inv4 th c t = Val (e, cost) ->
  exists y, camera_image c (value_h inv4 th (t_point t)) = Val y /\ e = V2 (u0 (t_y t) - u0 y) (u1 (t_y t) - u1 y) /\
    cost = u0 e * (n00 (t_invR t) * u0 e + n01 (t_invR t) * u1 e) + u1 e * (n10 (t_invR t) * u0 e + n11 (t_invR t) * u1 e).
Proof.
  unfold evaluate_error, predicted. destruct (camera_image c _) as [ y | | | ]; cbn [rbind]; try discriminate.
  cbv zeta. intros E. exists y. split; [ reflexivity | ]. assert (Ee : e = v2_sub (t_y t) y) by congruence.
  split; [ exact Ee | ]. assert (Ec : cost = v2_dot (v2_sub (t_y t) y) (m2_vec (t_invR t) (v2_sub (t_y t) y))) by congruence.
  rewrite Ec, <- Ee. reflexivity.
Qed.

(** The Jacobians are the derivatives of the error along every motion of the
    design variables of the point, of the projection and of the distortion. *)
Theorem C81_jacobians inv3 inv4 th c t : inverts3 inv3 -> inverts4 inv4 ->
  ok_h inv4 th (t_point t) -> regular c (value_h inv4 th (t_point t)) ->
  exists e cost j, evaluate_error inv4 th c t = Val (e, cost) /\ evaluate_jacobians inv3 inv4 th c t = Val j /\
    simple_jacobians inv3 inv4 th c t = Val (j_point j) /\
    (forall d, v2_rderive (fun s => error_of (evaluate_error inv4 (moved th d s) c t)) 0
       (V2 (applied (j_point j) d 0) (applied (j_point j) d 1))) /\
    (c_pactive c = true -> forall dk, length dk = projection_dim (c_model c) ->
       v2_rderive (fun s => error_of (evaluate_error inv4 th (with_intr c (stepped (c_intr c) dk s)) t)) 0
         (V2 (camera_applied (j_camera j) dk [] 0) (camera_applied (j_camera j) dk [] 1))) /\
    (c_dactive c = true -> forall dd, length dd = distortion_dim (c_model c) ->
       v2_rderive (fun s => error_of (evaluate_error inv4 th (with_dist c (stepped (c_dist c) dd s)) t)) 0
         (V2 (camera_applied (j_camera j) [] dd 0) (camera_applied (j_camera j) [] dd 1))) /\
    listed c (j_camera j).
Proof. intros I3 I4. exact (term_jacobians inv3 inv4 I3 I4 th c t). Qed.

(** The returned value moves with twice the product of error, weight and Jacobian. *)
Theorem C81_cost inv4 th c t d w e cost : n01 (t_invR t) = n10 (t_invR t) ->
  evaluate_error inv4 th c t = Val (e, cost) ->
  v2_rderive (fun s => error_of (evaluate_error inv4 (moved th d s) c t)) 0 w ->
  r_rderive (fun s => cost_of (evaluate_error inv4 (moved th d s) c t)) (2 * v2_dot e (m2_vec (t_invR t) w)).
Proof.
  intros SY E D. apply (cost_derive (fun s => predicted inv4 (moved th d s) c t) (t_y t) (t_invR t) w e SY); [ | exact D ].
  cbv zeta. cbv beta. rewrite moved_0. change (error_of (evaluate_error inv4 th c t) = Val e). rewrite E. reflexivity.
Qed.

(** An update adds, a set replaces, and any number of reverts afterwards brings
    back the parameters from before. *)
Theorem C81_adapter n v pre a o k : length v = n -> adapter_run n (Adapter v []) pre = Ok a ->
  o <> ARevert -> sized n o ->
  (exists b, adapter_step n a o = Ok b /\
     match o with
     | AUpdate dp => length (a_value b) = n /\ forall i, (i < n)%nat -> nth i (a_value b) 0 = nth i (a_value a) 0 + nth i dp 0
     | ASet x => a_value b = x
     | ARevert => False
     end) /\
  exists b, adapter_run n (Adapter v []) (pre ++ o :: repeat ARevert (S k)) = Ok b /\ a_value b = a_value a.
Proof.
  intros L E N S. assert (H : held n a) by (apply (adapter_run_held n pre (Adapter v [])); [ split; [ exact L | left; reflexivity ] | exact E ]).
  destruct H as (LA & _). destruct o as [ dp | | x ]; [ | contradiction (N eq_refl) | ]; cbn [sized] in S.
  - assert (ES : adapter_step n a (AUpdate dp) = Ok (Adapter (vadd (a_value a) dp) (a_value a)))
      by (cbn [adapter_step]; rewrite S, Nat.ltb_irrefl, firstn_all2 by lia; reflexivity).
    split.
    + eexists. split; [ exact ES | ]. cbn [a_value]. split; [ rewrite vadd_length; lia | ]. intros i Hi. apply vadd_nth; lia.
    + rewrite adapter_run_app, E. cbn [obind]. exists (Adapter (a_value a) (a_value a)).
      split; [ | reflexivity ]. change (adapter_run n a (AUpdate dp :: repeat ARevert (Datatypes.S k)))
        with (obind (adapter_step n a (AUpdate dp)) (fun a' => adapter_run n a' (repeat ARevert (Datatypes.S k)))). rewrite ES. cbn [obind].
      apply reverts. exact LA.
  - assert (ES : adapter_step n a (ASet x) = Ok (Adapter x (a_value a)))
      by (cbn [adapter_step]; rewrite S, Nat.ltb_irrefl, firstn_all2 by lia; reflexivity).
    split.
    + eexists. split; [ exact ES | ]. reflexivity.
    + rewrite adapter_run_app, E. cbn [obind]. exists (Adapter (a_value a) (a_value a)).
      split; [ | reflexivity ]. change (adapter_run n a (ASet x :: repeat ARevert (Datatypes.S k)))
        with (obind (adapter_step n a (ASet x)) (fun a' => adapter_run n a' (repeat ARevert (Datatypes.S k)))). rewrite ES. cbn [obind].
      apply reverts. exact LA.
Qed.

(** A history is defined exactly when it does not begin with a revert. *)
Theorem C81_adapter_defined n v ops : (0 < n)%nat -> length v = n -> Forall (sized n) ops ->
  (exists a, adapter_run n (Adapter v []) ops = Ok a) <-> hd (ASet []) ops <> ARevert.
Proof.
  intros P L F. destruct ops as [ | o ops ]; [ split; [ discriminate | intros _; eexists; reflexivity ] | ]. cbn [hd].
  inversion F as [ | ? ? S F' ]; subst o0 l || subst. split.
  - intros (a & E) ->. cbn [adapter_run adapter_step a_backup length] in E. destruct (0 <? length v)%nat eqn:Q; [ discriminate | ].
    apply Nat.ltb_ge in Q. lia.
  - intros N. assert (Q : exists b, adapter_step (length v) (Adapter v []) o = Ok b /\ length (a_backup b) = length v).
    { destruct o as [ dp | | x ]; [ | contradiction (N eq_refl) | ]; cbn [adapter_step sized] in *; rewrite S, Nat.ltb_irrefl; eexists; (split; reflexivity). }
    destruct Q as (b & E & LB). cbn [adapter_run]. rewrite E. cbn [obind]. apply backed; [ | exact LB | exact F' ].
    refine (adapter_step_held _ _ _ _ _ E). split; [ reflexivity | left; reflexivity ].
Qed.

(** ** What does not hold *)

(** Reverting before the first update reads an empty matrix; the difference from
    a linearisation point is never written. *)
Theorem C81_adapter_refuted : 
  (exists n v, length v = n /\ adapter_run n (Adapter v []) [ARevert] = UB) /\
  (exists a xhat out, length xhat = length (a_value a) /\ length out = length (a_value a) /\
     nth 0 (adapter_minimal_difference a xhat out) 0 <> nth 0 (a_value a) 0 - nth 0 xhat 0).
Proof.
  split.
  - exists 1%nat, [7]. split; reflexivity.
  - exists (Adapter [3] []), [1], [0]. split; [ reflexivity | split; [ reflexivity | ] ]. cbn. lra.
Qed.

Definition pixel_term : term := Term (V2 5 5) (M2 1 0 0 1) (HDv 0).
Definition at_point (p : v4) : env := Env (fun _ => V4 0 0 0 1) (fun _ => V3 1 0 0) (fun _ => p) (fun _ => 1) (fun _ => (1, m3_I)) (fun _ => m3_I) (fun _ => []).

(** A point outside the field of view of an omnidirectional camera: the error is
    computed from an image that was never set. *)
Theorem C81_unseen_refuted : exists th k, forall inv4 l d pa da,
  let c := Camera (Omnidirectional l) 10 10 k d pa da in
  length k = 5%nat /\ q3 (value_h inv4 th (t_point pixel_term)) = 1 /\
  evaluate_error inv4 th c pixel_term = Unset /\ imageJ 10 10 (Omnidirectional l) k d (value_h inv4 th (t_point pixel_term)) = Val (M23 0 0 0 0 0 0).
Proof.
  exists (at_point (V4 0 0 (-1) 1)), [1 / 2; 1; 1; 5; 5]. intros inv4 l d pa da c. split; [ reflexivity | split; [ reflexivity | ] ].
  assert (N : p_norm (V3 0 0 (-1)) = 1) by (unfold p_norm; cbn [x0 x1 x2]; replace (0 * 0 + 0 * 0 + -1 * -1) with 1 by ring; exact sqrt_1).
  assert (B : -1 <= - (fov_par (omni_camera 10 10 [1 / 2; 1; 1; 5; 5]) * p_norm (V3 0 0 (-1)))).
  { rewrite N. unfold omni_camera. cbn. repeat destruct Rle_dec; lra. }
  split.
  - unfold evaluate_error, predicted, camera_image, image, omni_hproject, omni_project.
    cbn [c c_model c_width c_height c_intr c_dist pixel_term t_point value_h at_point vh q0 q1 q2 q3 head3 x2].
    destruct (Rlt_dec 1 0); [ lra | ]. destruct (Rle_dec _ _) as [ L | L ]; [ reflexivity | ]. contradiction (L B).
  - unfold imageJ, omni_hprojectJ, omni_projectJ.
    cbn [pixel_term t_point value_h at_point vh q0 q1 q2 q3 head3 x2].
    destruct (Rlt_dec 1 0); [ lra | ]. destruct (Rle_dec _ _) as [ L | L ]; [ reflexivity | ]. contradiction (L B).
Qed.

(** A point on the optical axis of an equidistant camera has a finite error, but
    the Jacobian divides zero by zero. *)
Theorem C81_axis_refuted : exists th, forall inv3 inv4 k d pa da, length k = 4%nat ->
  let c := Camera (Pinhole Equidistant) 10 10 k d pa da in
  (exists e cost, evaluate_error inv4 th c pixel_term = Val (e, cost)) /\ evaluate_jacobians inv3 inv4 th c pixel_term = NotFinite.
Proof.
  exists (at_point (V4 0 0 1 1)). intros inv3 inv4 k d pa da LK c. split.
  - unfold evaluate_error, predicted, camera_image, image, pin_hproject, pin_project.
    cbn [c c_model c_width c_height c_intr c_dist pixel_term t_point value_h at_point vh q0 q1 q2 q3 head3 x2].
    destruct (Rlt_dec 1 0); [ lra | ]. destruct (Req_EM_T 1 0); [ lra | ]. cbn [fst rbind]. cbv zeta. do 2 eexists. reflexivity.
  - unfold evaluate_jacobians, imageJ, pin_hprojectJ, pin_projectJ.
    cbn [c c_model c_width c_height c_intr c_dist pixel_term t_point value_h at_point vh q0 q1 q2 q3 head3 x0 x1 x2 lens_of equi distortJ]. cbv zeta.
    destruct (Rlt_dec 1 0); [ lra | ]. destruct (Req_EM_T 1 0); [ lra | ].
    assert (E : eq_J (eq_set d) (V2 (0 * (1 / 1)) (0 * (1 / 1))) = NotFinite).
    { unfold eq_J. cbn [u0 u1]. cbv zeta. replace (0 * (1 / 1) * (0 * (1 / 1)) + 0 * (1 / 1) * (0 * (1 / 1))) with 0 by field.
      rewrite sqrt_0. destruct (Req_EM_T 0 0) as [ _ | Z ]; [ reflexivity | contradiction (Z eq_refl) ]. }
    rewrite E. reflexivity.
Qed.

(** ** The hypotheses are met *)

(** A transformed point seen by a pinhole camera with radial and tangential
    distortion, everything being estimated, and one seen by a double sphere camera. *)
Definition seen : env := Env (fun _ => V4 0 0 0 1) (fun _ => V3 1 0 2) (fun _ => V4 (-2) (-1) (-5) (-2)) (fun _ => 1) (fun _ => (1, m3_I)) (fun _ => m3_I) (fun _ => []).
Definition seen_term : term := Term (V2 5 5) (M2 2 1 1 3) (HMul (TBasic (RDv 0) (EDv 0)) (HDv 0)).
Lemma seen_value : value_h minv4 seen (t_point seen_term) = V4 (-4) (-1) (-9) (-2).
Proof.
  assert (E : quat2r (V4 0 0 0 1) = m3_I) by (kunf; f_equal; ring).
  change (m4_vec (TfModel.rt (quat2r (V4 0 0 0 1)) (V3 1 0 2)) (V4 (-2) (-1) (-5) (-2)) = V4 (-4) (-1) (-9) (-2)).
  rewrite E, rt_vec. kunf. f_equal; ring.
Qed.
Example C81_ex_pinhole : ok_h minv4 seen (t_point seen_term) /\
  regular (Camera (Pinhole RadTan) 640 480 [400; 410; 320; 240] [1 / 10; 1 / 100; 0; 1 / 1000] true true) (value_h minv4 seen (t_point seen_term)).
Proof.
  split.
  - split; [ | exact Logic.I ]. split; [ | exact Logic.I ]. change (unit4 (V4 0 0 0 1)). unfold unit4. kunf. ring.
  - rewrite seen_value. split; [ reflexivity | split; [ reflexivity | ] ]. cbn [c_model c_intr c_dist q0 q1 q2 q3 smooth_at x2 x0 x1 lens_regular].
    split; [ intros _; split; [ lra | exact Logic.I ] | split; [ lra | lra ] ].
Qed.
Example C81_ex_sphere :
  regular (Camera DoubleSphere 640 480 [1 / 2; 1 / 2; 400; 410; 320; 240] [] true false) (V4 3 0 4 1).
Proof.
  split; [ reflexivity | split; [ reflexivity | ] ]. cbn [c_model c_intr c_dist q0 q1 q2 q3 smooth_at nth x2].
  split; [ lra | split; [ | lra ] ]. intros _.
  assert (W : 0 <= sphere_border (1 / 2) (1 / 2)).
  { unfold sphere_border. destruct (Rle_dec (1 / 2) (1 / 2)); [ | lra ]. apply Rmult_le_pos; [ lra | ].
    left. apply Rinv_0_lt_compat, sqrt_lt_R0. lra. }
  split; [ lra | split; [ lra | split; [ exact W | ] ] ].
  assert (N : 0 <= v3_norm (V3 3 0 4)) by (unfold v3_norm; apply sqrt_pos). nra.
Qed.
Example C81_ex_adapter : exists a, adapter_run 2 (Adapter [1; 2] []) [AUpdate [1; 1]; AUpdate [3; 4]; ARevert; ARevert; ASet [0; 0]; ARevert] = Ok a /\
  nth 0 (a_value a) 0 = 2 /\ nth 1 (a_value a) 0 = 3.
Proof. eexists. split; [ reflexivity | ]. cbn. split; ring. Qed.

Print Assumptions C81_error.
Print Assumptions C81_jacobians.
Print Assumptions C81_cost.
Print Assumptions C81_adapter.
Print Assumptions C81_adapter_defined.
Print Assumptions C81_adapter_refuted.
Print Assumptions C81_unseen_refuted.
Print Assumptions C81_axis_refuted.
