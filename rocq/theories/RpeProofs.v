(** * Proofs about the reprojection error *)
From Coquelicot Require Import Coquelicot.
From Coq Require Import Reals List Lra Lia Arith.
From Verif Require Import Base KinModel KinSpec KinCurve KinProofs TfModel ExprModel ExprSpec ExprProps DistModel DistSpec DistProofs DistUndist
  PinModel CamSpec PinProofs OmniModel OmniSpec OmniProofs OmniProps EucmModel EucmSpec EucmProofs EucmProps
  DsModel DsSpec DsProofs DsProps RpeModel RpeSpec.
Import ListNotations.
Local Open Scope R_scope.

Lemma nth1 (d : list R) : length d = 1%nat -> d = [nth 0 d 0].
Proof. intros L. destruct d as [ | x [ | ] ]; try discriminate. reflexivity. Qed.

Lemma lens_facts l d y : length d = lens_dim l -> lens_regular l d y ->
  fst (distortJ (lens_of l d) y) = distort (lens_of l d) y /\
  (exists Jd, snd (distortJ (lens_of l d) y) = Val Jd /\ jacobian (distort (lens_of l d)) y Jd) /\
  (exists cs, paramJ (lens_of l d) y = Val cs /\ parameter_jacobian (lens_dim l) (fun v => distort (lens_of l v) y) d cs).
Proof.
  intros L H. destruct l; cbn [lens_of lens_dim lens_regular] in *.
  - split; [ reflexivity | split ].
    + exists m2_I. split; [ reflexivity | ]. intros c t v E D. cbn [distort nodist].
      eapply v2_derive_eq; [ | exact D ]. destruct v as [ a b ]. unfold m2_vec, m2_I. cbn [n00 n01 n10 n11 u0 u1]. f_equal; ring.
    + exists []. split; [ reflexivity | ]. split; [ reflexivity | ]. intros p t dp _ (LD & _). cbn [distort nodist combine_cols].
      split; cbn [u0 u1]; [ exact (is_derive_const (V := R_NormedModule) _ _) | exact (is_derive_const (V := R_NormedModule) _ _) ].
  - split; [ reflexivity | split ].
    + exists (rt_J (rt_set d) y). split; [ reflexivity | apply rt_jacobian ].
    + exists (rt_paramJ y). split; [ reflexivity | apply rt_param_jacobian ].
  - split; [ reflexivity | ]. assert (S0 := small_pos). split.
    + cbn [distortJ equi snd]. destruct (eq_J (eq_set d) y) as [ J | | | ] eqn:E.
      * exists J. split; [ reflexivity | ]. exact (eq_jacobian _ y J H E).
      * unfold eq_J in E. fold (radius y) in E. cbv zeta in E. destruct (Req_EM_T (radius y) 0); [ lra | discriminate ].
      * unfold eq_J in E. fold (radius y) in E. cbv zeta in E. destruct (Req_EM_T (radius y) 0); discriminate.
      * unfold eq_J in E. fold (radius y) in E. cbv zeta in E. destruct (Req_EM_T (radius y) 0); discriminate.
    + cbn [paramJ equi]. destruct (eq_paramJ y) as [ cs | | | ] eqn:E.
      * exists cs. split; [ reflexivity | ]. exact (eq_param_jacobian d y cs H E).
      * unfold eq_paramJ in E. fold (radius y) in E. cbv zeta in E. destruct (Req_EM_T (radius y) 0); [ lra | discriminate ].
      * unfold eq_paramJ in E. fold (radius y) in E. cbv zeta in E. destruct (Req_EM_T (radius y) 0); discriminate.
      * unfold eq_paramJ in E. fold (radius y) in E. cbv zeta in E. destruct (Req_EM_T (radius y) 0); discriminate.
  - destruct H as [ W H ]. split; [ reflexivity | split ].
    + exists (fov_J (nth 0 d 0) y). split; [ reflexivity | ]. apply fov_jacobian; [ lra | lra ].
    + exists (fov_paramJ (nth 0 d 0) y). split; [ reflexivity | ]. assert (Q := fov_param_jacobian (nth 0 d 0) y W (Rlt_le _ _ H)).
      rewrite <- (nth1 d L) in Q. exact Q.
Qed.

(** ** Euclidean points *)
Section Euclidean.
Variable width height : Z.
Notation sensor := (sensor width height).

Definition eimage (P : projection) (k d : list R) (p : v3) : res v2 :=
  match P with
  | Pinhole l => fst (pin_project (lens_of l d) (pin_set sensor k) p)
  | Omnidirectional l => fst (omni_project (lens_of l d) (omni_camera width height k) p)
  | ExtendedUnified => fst (eucm_project (eucm_cam width height k) p)
  | DoubleSphere => fst (ds_project (ds_cam width height k) p)
  end.
Definition eimageJ (P : projection) (k d : list R) (p : v3) : res m23 :=
  match P with
  | Pinhole l => snd (fst (pin_projectJ (lens_of l d) (pin_set sensor k) p))
  | Omnidirectional l => snd (fst (omni_projectJ (lens_of l d) (omni_camera width height k) p))
  | ExtendedUnified => snd (fst (eucm_projectJ (eucm_cam width height k) p))
  | DoubleSphere => snd (fst (ds_projectJ (ds_cam width height k) p))
  end.
Definition eintrJ (P : projection) (k d : list R) (p : v3) : res (list v2) :=
  match P with
  | Pinhole l => pin_intrJ (lens_of l d) p
  | Omnidirectional l => omni_intrJ (lens_of l d) (omni_camera width height k) p
  | ExtendedUnified => eucm_intrJ (eucm_cam width height k) p
  | DoubleSphere => ds_intrJ (ds_cam width height k) p
  end.
Definition edistJ (P : projection) (k d : list R) (p : v3) : res (list v2) :=
  match P with
  | Pinhole l => pin_distJ (lens_of l d) (pin_set sensor k) p
  | Omnidirectional l => omni_distJ (lens_of l d) (omni_camera width height k) p
  | ExtendedUnified | DoubleSphere => Val []
  end.

(** What a camera does at a point where it is smooth. *)
Definition well_behaved (P : projection) (k d : list R) (p : v3) : Prop :=
  (exists y, eimage P k d p = Val y) /\
  (exists J, eimageJ P k d p = Val J /\ point_jacobian (eimage P k d) p J) /\
  (exists cols, eintrJ P k d p = Val cols /\ image_param_jacobian (projection_dim P) (fun w => eimage P w d p) k cols) /\
  (exists cols, edistJ P k d p = Val cols /\ image_param_jacobian (distortion_dim P) (fun w => eimage P k w p) d cols).

Lemma pinhole_well_behaved l k d p : length d = lens_dim l -> smooth_at (Pinhole l) k d p -> well_behaved (Pinhole l) k d p.
Proof.
  intros L [ N H ]. destruct (lens_facts l d _ L H) as (E & (Jd & EJ & HJ) & (cs & EC & HC)).
  unfold well_behaved. cbn [eimage eimageJ eintrJ edistJ projection_dim distortion_dim].
  split; [ | split; [ | split ] ].
  - unfold pin_project. destruct (Req_EM_T (x2 p) 0); [ contradiction | ]. cbn [fst]. eexists. reflexivity.
  - assert (EX : exists J, snd (fst (pin_projectJ (lens_of l d) (pin_set sensor k) p)) = Val J).
    { unfold pin_projectJ. destruct (Req_EM_T (x2 p) 0); [ contradiction | ].
      destruct (distortJ (lens_of l d) _) as [ kp Jx ]. cbn [snd] in EJ. subst Jx. cbn [rbind fst snd]. eexists. reflexivity. }
    destruct EX as [ J EX ]. exists J. split; [ exact EX | ]. exact (pin_point_jacobian _ _ p Jd J N EJ HJ EX).
  - unfold pin_intrJ. destruct (Req_EM_T (x2 p) 0) eqn:EZ; [ contradiction | ]. eexists. split; [ reflexivity | ].
    apply pin_intr_jacobian. unfold pin_intrJ. rewrite EZ. reflexivity.
  - assert (EX : exists cols, pin_distJ (lens_of l d) (pin_set sensor k) p = Val cols).
    { unfold pin_distJ. destruct (Req_EM_T (x2 p) 0); [ contradiction | ]. cbv zeta. rewrite EC. cbn [rbind]. eexists. reflexivity. }
    destruct EX as [ cols EX ]. exists cols. split; [ exact EX | ].
    apply (pin_dist_jacobian (lens_dim l) (lens_of l) _ d p cols (lens_of l d) eq_refl); [ | exact EX ].
    intros y cs' EC' ->. change (V2 (x0 p * (1 / x2 p)) (x1 p * (1 / x2 p))) with (normalised p) in EC, HC.
    assert (cs' = cs) by congruence. subst cs'. exact HC.
Qed.

Lemma omni_sync_cam k : omni_sync (omni_camera width height k).
Proof. split; [ split; reflexivity | split; reflexivity ]. Qed.
Lemma omni_well_behaved l k d p : length d = lens_dim l -> smooth_at (Omnidirectional l) k d p -> well_behaved (Omnidirectional l) k d p.
Proof.
  intros L (Z & V2' & H). cbv zeta in *. assert (V : omni_valid (nth 0 k 0) p) by (split; assumption).
  change (V2 (x0 p * (1 / (x2 p + nth 0 k 0 * v3_norm p))) (x1 p * (1 / (x2 p + nth 0 k 0 * v3_norm p)))) with (omni_point (nth 0 k 0) p) in H.
  destruct (lens_facts l d _ L H) as (E & (Jd & EJ & HJ) & (cs & EC & HC)).
  assert (S := omni_sync_cam k). assert (NP := omni_valid_pos _ _ V).
  unfold well_behaved. cbn [eimage eimageJ eintrJ edistJ projection_dim distortion_dim].
  assert (VM : omni_valid (xi (omni_camera width height k)) p) by exact V.
  split; [ | split; [ | split ] ].
  - rewrite (omni_project_valid _ _ p S VM). cbn [fst]. eexists. reflexivity.
  - assert (EX : exists J, snd (fst (omni_projectJ (lens_of l d) (omni_camera width height k) p)) = Val J).
    { unfold omni_projectJ. destruct (Rle_dec _ _) as [ X | _ ]; [ apply (omni_valid_spec _ p S) in X; contradiction | ].
      destruct (Req_EM_T _ 0) as [ X | _ ]; [ exfalso; destruct VM; lra | ]. destruct (Req_EM_T _ 0) as [ X | _ ]; [ lra | ]. cbv zeta.
      change (V2 (x0 p * (1 / (x2 p + xi (omni_camera width height k) * p_norm p))) (x1 p * (1 / (x2 p + xi (omni_camera width height k) * p_norm p)))) with (omni_point (nth 0 k 0) p).
      destruct (distortJ (lens_of l d) _) as [ kp Jx ]. cbn [snd] in EJ. subst Jx. cbn [rbind fst snd]. eexists. reflexivity. }
    destruct EX as [ J EX ]. exists J. split; [ exact EX | ]. exact (omni_point_jacobian _ _ p Jd J S VM EJ HJ EX).
  - assert (EX : exists cols, omni_intrJ (lens_of l d) (omni_camera width height k) p = Val cols).
    { unfold omni_intrJ. destruct (Req_EM_T _ 0) as [ X | _ ]; [ exfalso; destruct VM; lra | ]. cbv zeta.
      change (V2 (x0 p * (1 / (x2 p + xi (omni_camera width height k) * p_norm p))) (x1 p * (1 / (x2 p + xi (omni_camera width height k) * p_norm p)))) with (omni_point (nth 0 k 0) p).
      destruct (distortJ (lens_of l d) _) as [ kp Jx ]. cbn [snd] in EJ. subst Jx. cbn [rbind]. eexists. reflexivity. }
    destruct EX as [ cols EX ]. exists cols. split; [ exact EX | ]. exact (omni_intr_jacobian _ _ k p Jd cols V EJ E HJ EX).
  - assert (EX : exists cols, omni_distJ (lens_of l d) (omni_camera width height k) p = Val cols).
    { unfold omni_distJ. destruct (Req_EM_T _ 0) as [ X | _ ]; [ exfalso; destruct VM; lra | ]. cbv zeta.
      change (V2 (x0 p * (1 / (x2 p + xi (omni_camera width height k) * p_norm p))) (x1 p * (1 / (x2 p + xi (omni_camera width height k) * p_norm p)))) with (omni_point (nth 0 k 0) p).
      rewrite EC. cbn [rbind]. eexists. reflexivity. }
    destruct EX as [ cols EX ]. exists cols. split; [ exact EX | ].
    apply (omni_dist_jacobian (lens_dim l) (lens_of l) _ d p cols S VM); [ | exact EX ].
    intros cs' EC'. change (xi (omni_camera width height k)) with (nth 0 k 0) in EC'. assert (cs' = cs) by congruence. subst cs'. exact HC.
Qed.

Lemma no_coefficients f d : (exists y, f = Val y) -> length d = 0%nat -> image_param_jacobian 0 (fun _ : list R => f) d [].
Proof.
  intros [ y -> ] L. split; [ reflexivity | ]. intros p t dp _ (LD & _). exists (fun _ => y). split; [ apply filter_forall; reflexivity | ].
  cbn [combine_cols]. split; cbn [u0 u1]; exact (is_derive_const (V := R_NormedModule) _ _).
Qed.

Lemma eucm_sync_cam k : eucm_sync (eucm_cam width height k).
Proof. split; [ split; reflexivity | split; reflexivity ]. Qed.
Lemma eucm_well_behaved k d p : length d = 0%nat -> smooth_at ExtendedUnified k d p -> well_behaved ExtendedUnified k d p.
Proof.
  intros L (B & V & F). assert (S := eucm_sync_cam k).
  destruct (C62_eucm_point_jacobian (eucm_cam width height k) S B) as (HJ & _ & HX).
  destruct (HX p V) as (y & J & b & EJ). assert (HP := HJ p y J b EJ).
  unfold well_behaved. cbn [eimage eimageJ eintrJ edistJ projection_dim distortion_dim].
  assert (EI : exists y, fst (eucm_project (eucm_cam width height k) p) = Val y).
  { destruct (HP (fun _ => p) 0 v3_zero eq_refl) as (g & G & _).
    { split; [ | split ]; exact (is_derive_const (V := R_NormedModule) _ _). }
    exists (g 0). exact (locally_singleton _ _ G). }
  split; [ exact EI | split; [ | split ] ].
  - exists J. split; [ rewrite EJ; reflexivity | exact HP ].
  - assert (EX : exists cols, eucm_intrJ (eucm_cam width height k) p = Val cols).
    { unfold eucm_intrJ. destruct V as [ V1 V2' ]. unfold ellipsoid_norm in V1, V2'.
      change (nth 1 k 0 * (x0 p * x0 p + x1 p * x1 p) + x2 p * x2 p) with (eucm_d2 (eucm_cam width height k) p) in V1, V2'.
      destruct (Rle_dec _ 0) as [ X | _ ].
      - exfalso. assert (Q : x2 p * x2 p <= eucm_d2 (eucm_cam width height k) p).
        { unfold eucm_d2. assert (U := Rle_0_sqr (x0 p)). assert (W := Rle_0_sqr (x1 p)). unfold Rsqr in U, W.
          change (eb (eucm_cam width height k)) with (nth 1 k 0). nra. }
        assert (Z := Rle_0_sqr (x2 p)). unfold Rsqr in Z. assert (Z2 : x2 p = 0) by nra.
        rewrite (sqrt_neg_0 _ X), Z2 in V1. lra.
      - cbv zeta. destruct (Req_EM_T _ 0) as [ X | _ ]; [ | eexists; reflexivity ].
        exfalso. change (ea (eucm_cam width height k)) with (nth 0 k 0) in X. lra. }
    destruct EX as [ cols EX ]. exists cols. split; [ exact EX | ]. exact (C62_eucm_intrinsics_jacobian _ k p cols B V F EX).
  - exists []. split; [ reflexivity | ]. exact (no_coefficients _ d EI L).
Qed.

Lemma ds_sync_cam k : ds_sync (ds_cam width height k).
Proof. split; [ split; reflexivity | split; reflexivity ]. Qed.
Lemma ds_well_behaved k d p : length d = 0%nat -> smooth_at DoubleSphere k d p -> well_behaved DoubleSphere k d p.
Proof.
  intros L (A & X & B & V). assert (S := ds_sync_cam k).
  change (sphere_border (nth 0 k 0) (nth 1 k 0)) with (ds_border (nth 0 k 0) (nth 1 k 0)) in B, V.
  destruct (C63_ds_image (ds_cam width height k) p S A X B) as (_ & HX & _). destruct (HX V) as (y & b & EP).
  destruct (C63_ds_point_jacobian (ds_cam width height k)) as (HJ & _ & HE).
  destruct (HE p y b S A X B EP) as (J & EJ). assert (HP := HJ p y J b EJ).
  unfold well_behaved. cbn [eimage eimageJ eintrJ edistJ projection_dim distortion_dim].
  assert (EI : exists y, fst (ds_project (ds_cam width height k) p) = Val y) by (exists y; rewrite EP; reflexivity).
  split; [ exact EI | split; [ | split ] ].
  - exists J. split; [ rewrite EJ; reflexivity | exact HP ].
  - assert (EX : exists cols, ds_intrJ (ds_cam width height k) p = Val cols).
    { unfold ds_projectJ in EJ. cbv zeta in EJ. destruct (ds_refused _ _ _) eqn:ER; [ discriminate | ].
      unfold ds_intrJ. cbv zeta. destruct (Req_EM_T (ds_norm _ p) 0); [ discriminate | ]. destruct (Req_EM_T (ds_d1 p) 0); [ discriminate | ].
      destruct (Req_EM_T (ds_d2 _ p) 0); [ discriminate | ]. eexists. reflexivity. }
    destruct EX as [ cols EX ]. exists cols. split; [ exact EX | ]. exact (C63_ds_intrinsics_jacobian _ k p cols (proj1 X) V EX).
  - exists []. split; [ reflexivity | ]. exact (no_coefficients _ d EI L).
Qed.

Lemma all_well_behaved P k d p : length d = distortion_dim P -> smooth_at P k d p -> well_behaved P k d p.
Proof.
  intros L H. destruct P; cbn [distortion_dim] in L.
  - exact (pinhole_well_behaved l k d p L H).
  - exact (omni_well_behaved l k d p L H).
  - exact (eucm_well_behaved k d p L H).
  - exact (ds_well_behaved k d p L H).
Qed.
End Euclidean.

(** ** Homogeneous points *)
Lemma head3_derive c t w : v4_derive c t w -> v3_derive (fun s => head3 (c s)) t (head3 w).
Proof. intros (A & B & C & _). split; [ exact A | split; [ exact B | exact C ] ]. Qed.
Lemma q3_sign_near (c : R -> v4) t w : v4_derive c t w ->
  (q3 (c t) < 0 -> locally t (fun s => q3 (c s) < 0)) /\ (0 < q3 (c t) -> locally t (fun s => 0 < q3 (c s))).
Proof.
  intros (_ & _ & _ & D). assert (K := ex_derive_continuous _ _ (ex_intro _ _ D)). split; intros H.
  - exact (K _ (open_lt 0 (q3 (c t)) H)).
  - exact (K _ (open_gt 0 (q3 (c t)) H)).
Qed.
Lemma neg3_derive c t w : v3_derive c t w -> v3_derive (fun s => neg3 (c s)) t (neg3 w).
Proof.
  intros (A & B & C). split; [ | split ]; unfold neg3; cbn [x0 x1 x2].
  - exact (is_derive_opp _ t _ A).
  - exact (is_derive_opp _ t _ B).
  - exact (is_derive_opp _ t _ C).
Qed.
Lemma v2_rderive_ext_loc f g t w : locally t (fun s => f s = g s) -> v2_rderive f t w -> v2_rderive g t w.
Proof.
  intros E (h & L & D). exists h. split; [ | exact D ].
  eapply filter_imp; [ | exact (filter_and _ _ E L) ]. intros s [ X Y ]. rewrite <- X. exact Y.
Qed.
Lemma v2_rderive_eq f t w w' : w = w' -> v2_rderive f t w -> v2_rderive f t w'.
Proof. intros ->. exact (fun x => x). Qed.
Lemma pin_project_neg l d C p : fst (pin_project (lens_of l d) C (neg3 p)) = fst (pin_project (lens_of l d) C p).
Proof.
  unfold pin_project, neg3. cbn [x0 x1 x2].
  destruct (Req_EM_T (- x2 p) 0), (Req_EM_T (x2 p) 0); try lra; [ reflexivity | ]. cbn [fst].
  replace (- x0 p * (1 / - x2 p)) with (x0 p * (1 / x2 p)) by (field; lra).
  replace (- x1 p * (1 / - x2 p)) with (x1 p * (1 / x2 p)) by (field; lra). reflexivity.
Qed.
Lemma neg3_invol p : neg3 (neg3 p) = p.
Proof. destruct p as [ a b c ]. unfold neg3. cbn [x0 x1 x2]. f_equal; ring. Qed.

Section Homogeneous.
Variable width height : Z.

Lemma image_facing P k d ph : image width height P k d ph = eimage width height P k d (facing ph).
Proof.
  destruct P; cbn [image eimage]; unfold pin_hproject, omni_hproject, eucm_hproject, ds_hproject, facing;
    destruct (Rlt_dec (q3 ph) 0); reflexivity.
Qed.
Lemma intr_facing P k d ph : intrinsicsJ width height P k d ph = eintrJ width height P k d (facing ph).
Proof. destruct P; reflexivity. Qed.
Lemma dist_facing P k d ph : coefficientsJ width height P k d ph = edistJ width height P k d (facing ph).
Proof. destruct P; reflexivity. Qed.

Lemma imageJ_other P k d ph J : (forall l, P <> Pinhole l) -> eimageJ width height P k d (facing ph) = Val J ->
  imageJ width height P k d ph = Val (if Rlt_dec (q3 ph) 0 then m23_opp J else J).
Proof.
  intros N E. unfold facing in E. destruct P; [ exfalso; exact (N l eq_refl) | | | ]; cbn [imageJ eimageJ] in *;
    unfold omni_hprojectJ, eucm_hprojectJ, ds_hprojectJ; destruct (Rlt_dec (q3 ph) 0); try exact E.
  - destruct (omni_projectJ _ _ _) as [ [ y rr ] b ]. cbn [fst snd] in *. rewrite E. reflexivity.
  - destruct (eucm_projectJ _ _) as [ [ y rr ] b ]. cbn [fst snd] in *. rewrite E. reflexivity.
  - destruct (ds_projectJ _ _) as [ [ y rr ] b ]. cbn [fst snd] in *. rewrite E. reflexivity.
Qed.

(** At a regular point everything is defined and the Jacobians are derivatives. *)
Lemma camera_at P k d ph : length d = distortion_dim P ->
  q3 ph <> 0 -> smooth_at P k d (facing ph) ->
  (exists y, image width height P k d ph = Val y) /\
  (exists J, imageJ width height P k d ph = Val J /\
     forall c w, c 0 = ph -> v4_derive c 0 w -> v2_rderive (fun s => image width height P k d (c s)) 0 (m23_vec J (head3 w))) /\
  (exists cols, intrinsicsJ width height P k d ph = Val cols /\
     image_param_jacobian (projection_dim P) (fun w => image width height P w d ph) k cols) /\
  (exists cols, coefficientsJ width height P k d ph = Val cols /\
     image_param_jacobian (distortion_dim P) (fun w => image width height P k w ph) d cols).
Proof.
  intros L N S. destruct (all_well_behaved width height P k d _ L S) as (HY & (J & EJ & HJ) & (ci & Ei & Hi) & (cd & Ed & Hd)).
  split; [ | split; [ | split ] ].
  - rewrite image_facing. exact HY.
  - assert (NEAR : forall c w, c 0 = ph -> v4_derive c 0 w ->
      locally 0 (fun s => facing (c s) = if Rlt_dec (q3 ph) 0 then neg3 (head3 (c s)) else head3 (c s))).
    { intros c w E D. destruct (q3_sign_near c 0 w D) as [ A B ]. rewrite E in A, B.
      destruct (Rlt_dec (q3 ph) 0) as [ X | X ].
      - eapply filter_imp; [ | exact (A X) ]. intros s Q. unfold facing. destruct (Rlt_dec (q3 (c s)) 0); [ reflexivity | contradiction ].
      - assert (Y : 0 < q3 ph) by lra. eapply filter_imp; [ | exact (B Y) ]. intros s Q. unfold facing.
        destruct (Rlt_dec (q3 (c s)) 0); [ lra | reflexivity ]. }
    assert (OTHER : (forall l, P <> Pinhole l) ->
      exists J, imageJ width height P k d ph = Val J /\
        forall c w, c 0 = ph -> v4_derive c 0 w -> v2_rderive (fun s => image width height P k d (c s)) 0 (m23_vec J (head3 w))).
    { intros NP. eexists. split; [ exact (imageJ_other P k d ph J NP EJ) | ]. intros c w E D. assert (NC := NEAR c w E D).
      unfold facing in HJ. destruct (Rlt_dec (q3 ph) 0) as [ X | X ].
      - apply (v2_rderive_ext_loc (fun s => eimage width height P k d (neg3 (head3 (c s))))).
        { eapply filter_imp; [ | exact NC ]. intros s Q. rewrite image_facing, Q. reflexivity. }
        exact (neg_point_jacobian _ _ _ HJ (fun s => head3 (c s)) 0 (head3 w) (f_equal head3 E) (head3_derive c 0 w D)).
      - apply (v2_rderive_ext_loc (fun s => eimage width height P k d (head3 (c s)))).
        { eapply filter_imp; [ | exact NC ]. intros s Q. rewrite image_facing, Q. reflexivity. }
        exact (HJ (fun s => head3 (c s)) 0 (head3 w) (f_equal head3 E) (head3_derive c 0 w D)). }
    destruct P; try (apply OTHER; discriminate).
    (* pinhole: the Jacobian is computed at the given point whatever the sign *)
    assert (SH : smooth_at (Pinhole l) k d (head3 ph)).
    { unfold facing in S. destruct (Rlt_dec (q3 ph) 0) as [ X | X ]; [ | exact S ].
      revert S. cbn [smooth_at]. unfold neg3. cbn [x0 x1 x2]. intros [ A B ]. split; [ lra | ].
      replace (x0 (head3 ph) * (1 / x2 (head3 ph))) with (- x0 (head3 ph) * (1 / - x2 (head3 ph))) by (field; lra).
      replace (x1 (head3 ph) * (1 / x2 (head3 ph))) with (- x1 (head3 ph) * (1 / - x2 (head3 ph))) by (field; lra). exact B. }
    destruct (pinhole_well_behaved width height l k d _ L SH) as (_ & (J' & EJ' & HJ') & _).
    exists J'. split; [ exact EJ' | ]. intros c w E D.
    apply (v2_rderive_ext_loc (fun s => eimage width height (Pinhole l) k d (head3 (c s)))).
    { apply filter_forall. intros s. rewrite image_facing. unfold facing. destruct (Rlt_dec (q3 (c s)) 0); [ | reflexivity ].
      cbn [eimage]. symmetry. apply pin_project_neg. }
    exact (HJ' (fun s => head3 (c s)) 0 (head3 w) (f_equal head3 E) (head3_derive c 0 w D)).
  - exists ci. split; [ rewrite intr_facing; exact Ei | ]. destruct Hi as [ LC Hi ]. split; [ exact LC | ]. intros p t dp Ep Dp.
    eapply v2_rderive_ext_loc; [ | exact (Hi p t dp Ep Dp) ]. apply filter_forall. intros s. rewrite image_facing. reflexivity.
  - exists cd. split; [ rewrite dist_facing; exact Ed | ]. destruct Hd as [ LC Hd ]. split; [ exact LC | ]. intros p t dp Ep Dp.
    eapply v2_rderive_ext_loc; [ | exact (Hd p t dp Ep Dp) ]. apply filter_forall. intros s. rewrite image_facing. reflexivity.
Qed.
End Homogeneous.

(** ** The error term *)
Lemma stepped_nth v dv s i : length dv = length v -> (i < length v)%nat -> nth i (stepped v dv s) 0 = nth i v 0 + s * nth i dv 0.
Proof.
  revert dv i. induction v as [ | x v IH ]; intros [ | y dv ] i L H; cbn [length] in *; try lia.
  destruct i as [ | i ]; [ reflexivity | ]. cbn [stepped combine map nth]. exact (IH dv i ltac:(lia) ltac:(lia)).
Qed.
Lemma stepped_derive v dv : length dv = length v -> list_derive (length v) (stepped v dv) 0 dv.
Proof.
  intros L. split; [ exact L | ]. intros i H.
  apply (is_derive_ext (fun s => nth i v 0 + s * nth i dv 0)); [ intros s; symmetry; exact (stepped_nth v dv s i L H) | ].
  auto_derive; [ exact Logic.I | ]. match goal with |- ?a = ?b => change (@eq R a b) end. ring.
Qed.
Lemma stepped_0 v dv i : length dv = length v -> (i < length v)%nat -> nth i (stepped v dv 0) 0 = nth i v 0.
Proof. intros L H. rewrite stepped_nth by assumption. ring. Qed.

Lemma neg_row_dot J w : m23_vec J (head3 w) = V2 (- v4_dot (neg_row J 0) w) (- v4_dot (neg_row J 1) w).
Proof.
  destruct J as [ a b c e f g ], w as [ x y z u ]. unfold m23_vec, neg_row, head3, v4_dot.
  cbn [j00 j01 j02 j10 j11 j12 q0 q1 q2 q3 x0 x1 x2]. f_equal; ring.
Qed.
Lemma neg_cols_dot cols dp : combine_cols cols dp = V2 (- ldot (neg_cols cols 0) dp) (- ldot (neg_cols cols 1) dp).
Proof.
  revert dp. induction cols as [ | c cols IH ]; intros dp; [ cbn; f_equal; ring | ].
  destruct dp as [ | x dp ]; [ cbn; f_equal; ring | ]. cbn [combine_cols neg_cols map ldot]. rewrite IH.
  unfold v2_add, v2_scale, neg_cols. cbn [u0 u1]. f_equal; ring.
Qed.
Lemma error_derive (f : R -> res v2) (y : v2) (M : m2) w : v2_rderive f 0 w ->
  v2_rderive (fun s => error_of (rbind (f s) (fun h => let e := v2_sub y h in Val (e, v2_dot e (m2_vec M e))))) 0 (V2 (- u0 w) (- u1 w)).
Proof.
  intros (g & L & A & B). exists (fun s => v2_sub y (g s)). split.
  - eapply filter_imp; [ | exact L ]. intros s ->. reflexivity.
  - split; unfold v2_sub; cbn [u0 u1].
    + evar_last; [ exact (is_derive_minus (V := R_NormedModule) _ _ 0 _ _ (is_derive_const (V := R_NormedModule) (u0 y) 0) A) | ].
      unfold minus, plus, opp, zero. cbn. ring.
    + evar_last; [ exact (is_derive_minus (V := R_NormedModule) _ _ 0 _ _ (is_derive_const (V := R_NormedModule) (u1 y) 0) B) | ].
      unfold minus, plus, opp, zero. cbn. ring.
Qed.
