(** * Masks, visibility and stacked parameters: proofs *)
From Coquelicot Require Import Coquelicot.
From Coq Require Import Reals List Lra Lia Arith ZArith Bool.
From Verif Require Import Base KinModel DistModel DistSpec DistProofs PinModel CamSpec PinProofs OmniModel EucmModel DsModel RpeModel RpeSpec RpeProofs RpeTerm RsModel RsProofs
  CgModel CgSpec.
Import ListNotations.
Local Open Scope R_scope.

(** ** Masks *)

Lemma to_i32_nonneg x n : 0 <= x < IZR n -> (n <= 2147483647)%Z -> exists z, to_i32 x = Ok z /\ (0 <= z < n)%Z /\ IZR z <= x < IZR z + 1.
Proof.
  intros (A & B) N. exists (Int_part x). assert (I := int_range x 0 n A B). unfold to_i32. destruct (Rle_dec 0 x); [ | lra ].
  rewrite ret_i32_eq by lia. split; [ reflexivity | split; [ exact I | exact (int_part x) ] ].
Qed.
Lemma mask_inside m c k : covers m c -> inside_image c k -> exists b, mask_valid m k = Ok b /\ (b = true <-> lets_through m k).
Proof.
  intros C (I0 & I1). destruct m as [ | img scale ]; [ exists true; split; [ reflexivity | cbn; tauto ] | ].
  destruct C as (S & C).
  assert (Q : exists r w, (r, w) = (match img with Some p => (p_rows p, p_cols p) | None => (2147483647, 2147483647)%Z end)) by (destruct img; eauto).
  destruct Q as (r & w & Q). rewrite <- Q in C. destruct C as (H1 & H0 & L1 & L0).
  destruct (to_i32_nonneg (u1 k * scale) r) as (z1 & E1 & B1 & F1); [ nra | exact L1 | ].
  destruct (to_i32_nonneg (u0 k * scale) w) as (z0 & E0 & B0 & F0); [ nra | exact L0 | ].
  cbn [mask_valid]. rewrite E1, E0. cbn [obind]. destruct img as [ p | ]; [ | exists true; split; [ reflexivity | cbn; tauto ] ].
  assert (r = p_rows p) by congruence. assert (w = p_cols p) by congruence. subst r w.
  assert (EP : pixel p z1 z0 = Ok (p_at p z1 z0)).
  { unfold pixel. replace ((0 <=? z1) && (z1 <? p_rows p) && (0 <=? z0) && (z0 <? p_cols p))%Z%bool with true by lia. reflexivity. }
  rewrite EP. cbn [obind]. eexists. split; [ reflexivity | ]. rewrite Z.ltb_lt. cbn [lets_through]. split.
  - intros P. exists z1, z0. auto.
  - intros (a & b & A & B & P). assert (a = z1).
    { assert ((a < z1 + 1)%Z) by (apply lt_IZR; rewrite plus_IZR; lra). assert ((z1 < a + 1)%Z) by (apply lt_IZR; rewrite plus_IZR; lra). lia. }
    assert (b = z0).
    { assert ((b < z0 + 1)%Z) by (apply lt_IZR; rewrite plus_IZR; lra). assert ((z0 < b + 1)%Z) by (apply lt_IZR; rewrite plus_IZR; lra). lia. }
    subst. exact P.
Qed.

(** ** The flag of a projection means a keypoint inside the image *)

Definition honest (c : camera) (r : res v2 * bool) : Prop := snd r = true -> exists k, fst r = Val k /\ inside_image c k.

Lemma on_image_spec c k : on_image c k = true <-> inside_image c k.
Proof. unfold on_image. rewrite on_sensor_spec. reflexivity. Qed.

Lemma eproject_honest c p : honest c (eproject c p).
Proof.
  unfold honest, eproject. destruct (c_model c) as [ l | l | | ].
  - unfold pin_project. destruct (Req_EM_T (x2 p) 0); [ discriminate | ]. cbn [fst snd]. intros H. apply andb_true_iff in H. destruct H as (H & _).
    eexists. split; [ reflexivity | ]. apply on_sensor_spec in H. exact H.
  - unfold omni_project. destruct (Rle_dec _ _); [ discriminate | ]. destruct (Req_EM_T _ _); [ discriminate | ]. cbn [fst snd]. intros H.
    eexists. split; [ reflexivity | ]. apply on_sensor_spec in H. exact H.
  - unfold eucm_project. destruct (Rlt_dec _ _); [ discriminate | ]. destruct (Rle_dec _ _); [ discriminate | ]. destruct (Req_EM_T _ _); [ discriminate | ].
    cbn [fst snd]. intros H. eexists. split; [ reflexivity | ]. apply on_sensor_spec in H. exact H.
  - unfold ds_project. destruct (ds_refused _ _ _); [ discriminate | ]. destruct (Req_EM_T _ _); [ discriminate | ].
    cbn [fst snd]. intros H. eexists. split; [ reflexivity | ]. apply on_sensor_spec in H. exact H.
Qed.
Lemma hproject_eproject c p : hproject c p = eproject c (facing p).
Proof.
  unfold hproject, eproject, facing. destruct (c_model c) as [ l | l | | ]; unfold pin_hproject, omni_hproject, eucm_hproject, ds_hproject;
    destruct (Rlt_dec (q3 p) 0); reflexivity.
Qed.
Lemma hproject_honest c p : honest c (hproject c p).
Proof. rewrite hproject_eproject. apply eproject_honest. Qed.

Lemma hprojectJ_honest c p : honest c (fst (fst (hprojectJ c p)), snd (hprojectJ c p)).
Proof.
  unfold honest, hprojectJ. cbn [fst snd]. destruct (c_model c) as [ l | l | | ].
  - unfold pin_hprojectJ, pin_projectJ. destruct (Req_EM_T _ 0); [ discriminate | ]. destruct (distortJ _ _) as [ kp Jd ]. cbn [fst snd]. intros H.
    apply andb_true_iff in H. destruct H as (H & _). eexists. split; [ reflexivity | ]. apply on_sensor_spec in H. exact H.
  - assert (Q : forall q, snd (omni_projectJ (lens_of l (c_dist c)) (omni_camera (c_width c) (c_height c) (c_intr c)) q) = true ->
      exists k, fst (fst (omni_projectJ (lens_of l (c_dist c)) (omni_camera (c_width c) (c_height c) (c_intr c)) q)) = Val k /\ inside_image c k).
    { intros q. unfold omni_projectJ. destruct (Rle_dec _ _); [ discriminate | ]. destruct (Req_EM_T _ _); [ discriminate | ]. destruct (Req_EM_T _ _); [ discriminate | ].
      destruct (distortJ _ _) as [ kp Jd ]. cbn [fst snd]. intros H. eexists. split; [ reflexivity | ]. apply on_sensor_spec in H. exact H. }
    unfold omni_hprojectJ. destruct (Rlt_dec (q3 p) 0); [ | apply Q ]. specialize (Q (neg3 (head3 p))).
    destruct (omni_projectJ _ _ _) as [ [ k J ] b ]. exact Q.
  - assert (Q : forall q, snd (eucm_projectJ (eucm_cam (c_width c) (c_height c) (c_intr c)) q) = true ->
      exists k, fst (fst (eucm_projectJ (eucm_cam (c_width c) (c_height c) (c_intr c)) q)) = Val k /\ inside_image c k).
    { intros q. unfold eucm_projectJ. destruct (Rlt_dec _ _); [ discriminate | ]. destruct (Rle_dec _ _); [ discriminate | ]. destruct (Req_EM_T _ _); [ discriminate | ].
      destruct (Req_EM_T _ _); cbn [fst snd]; intros H; (eexists; split; [ reflexivity | ]); apply on_sensor_spec in H; exact H. }
    unfold eucm_hprojectJ. destruct (Rlt_dec (q3 p) 0); [ | apply Q ]. specialize (Q (neg3 (head3 p))).
    destruct (eucm_projectJ _ _) as [ [ k J ] b ]. exact Q.
  - assert (Q : forall q, snd (ds_projectJ (ds_cam (c_width c) (c_height c) (c_intr c)) q) = true ->
      exists k, fst (fst (ds_projectJ (ds_cam (c_width c) (c_height c) (c_intr c)) q)) = Val k /\ inside_image c k).
    { intros q. unfold ds_projectJ. destruct (ds_refused _ _ _); [ discriminate | ]. destruct (Req_EM_T _ _); [ discriminate | ].
      destruct (Req_EM_T _ _); [ | destruct (Req_EM_T _ _) ]; cbn [fst snd]; intros H; (eexists; split; [ reflexivity | ]); apply on_sensor_spec in H; exact H. }
    unfold ds_hprojectJ. destruct (Rlt_dec (q3 p) 0); [ | apply Q ]. specialize (Q (neg3 (head3 p))).
    destruct (ds_projectJ _ _) as [ [ k J ] b ]. exact Q.
Qed.

Lemma masked_spec m c r : covers m c -> honest c r ->
  exists b, masked m r = Ok b /\ (b = true <-> exists k, fst r = Val k /\ snd r = true /\ lets_through m k).
Proof.
  intros C H. unfold masked. destruct r as [ k f ]. unfold honest in H. cbn [fst snd] in *. destruct f.
  - destruct (H eq_refl) as (y & -> & I). destruct (mask_inside m c y C I) as (b & E & S). exists b. split; [ exact E | ]. rewrite S. split.
    + intros L. exists y. auto.
    + intros (z & EZ & _ & L). assert (z = y) by congruence. subst z. exact L.
  - exists false. split; [ reflexivity | ]. split; [ discriminate | intros (z & _ & F & _); discriminate ].
Qed.

(** ** Parameters *)

Lemma vadd_length a b : length (vadd a b) = Nat.min (length a) (length b).
Proof. revert b. induction a as [ | x a IH ]; intros [ | y b ]; cbn [vadd length Nat.min]; [ reflexivity.. | rewrite IH; reflexivity ]. Qed.
Lemma vadd_app a a' b b' : length a = length a' -> vadd (a ++ b) (a' ++ b') = vadd a a' ++ vadd b b'.
Proof. revert a'. induction a as [ | x a IH ]; intros [ | y a' ] H; cbn in *; try discriminate; [ reflexivity | ]. rewrite IH by lia. reflexivity. Qed.

Lemma block_ok n v : (n <= length v)%nat -> block n v = Ok (firstn n v, skipn n v).
Proof. intros H. unfold block. destruct (Nat.ltb_spec (length v) n); [ lia | reflexivity ]. Qed.
Lemma shutter_get_length s : length (shutter_get s) = shutter_dim s.
Proof. destruct s; reflexivity. Qed.
Lemma get_length g f : sized g -> length (get_parameters g f) = minimal_dimensions g f.
Proof.
  intros (A & B). unfold get_parameters, minimal_dimensions, np, nd. rewrite !app_length.
  destruct (f_proj f), (f_dist f), (f_shut f); cbn [length]; rewrite ?A, ?B, ?shutter_get_length; lia.
Qed.

Lemma firstn_split {A} a b (v : list A) : firstn (a + b) v = firstn a v ++ firstn b (skipn a v).
Proof. revert v. induction a as [ | a IH ]; intros v; [ reflexivity | ]. destruct v as [ | x v ]; cbn [firstn skipn Nat.add app]; [ rewrite firstn_nil; reflexivity | rewrite IH; reflexivity ]. Qed.

Section Write.
Variable change : list R -> list R -> list R.
Hypothesis CL : forall a b, length a = length b -> length (change a b) = length a.
Hypothesis CA : forall a a' b b', length a = length a' -> change (a ++ b) (a' ++ b') = change a a' ++ change b b'.

Lemma change_nil : change [] [] = [].
Proof. assert (H := CL [] [] eq_refl). destruct (change [] []); [ reflexivity | discriminate ]. Qed.
Lemma shutter_change s b : length b = shutter_dim s ->
  shutter_get (shutter_set s (change (shutter_get s) b)) = change (shutter_get s) b.
Proof.
  intros L. assert (H := CL (shutter_get s) b ltac:(rewrite shutter_get_length; lia)). destruct s; cbn [shutter_get shutter_set shutter_dim] in *.
  - destruct b; [ | discriminate ]. symmetry. exact change_nil.
  - destruct (change [delay] b) as [ | x [ | y r ] ]; try discriminate. reflexivity.
Qed.

Lemma write_spec g f v : sized g -> (minimal_dimensions g f <= length v)%nat ->
  exists g' thrown, write change g f v = Ok (g', thrown) /\ sized g' /\ same_kind g' g /\
    get_parameters g' (other f) = get_parameters g (other f) /\
    (thrown = false -> get_parameters g' f = change (get_parameters g f) (firstn (minimal_dimensions g f) v)) /\
    (thrown = true <-> f_dist f = true /\ accepted (c_model (g_cam g')) (c_dist (g_cam g')) = false).
Proof.
  intros (S1 & S2) L. unfold write.
  set (n1 := if f_proj f then np g else 0%nat) in *. set (n2 := if f_dist f then nd g else 0%nat) in *.
  set (n3 := if f_shut f then shutter_dim (g_shutter g) else 0%nat) in *.
  assert (EM : minimal_dimensions g f = (n1 + n2 + n3)%nat) by reflexivity. rewrite EM in *.
  set (c := g_cam g) in *.
  set (c1 := if f_proj f then with_intr c (change (c_intr c) (firstn (np g) v)) else c).
  assert (E1 : (if f_proj f then do '(b, v) <- block (np g) v; Ok (with_intr c (change (c_intr c) b), v) else Ok (c, v)) = Ok (c1, skipn n1 v)).
  { unfold c1, n1. destruct (f_proj f); [ | reflexivity ]. rewrite block_ok by (unfold n1 in L; lia). reflexivity. }
  rewrite E1. cbn [obind]. set (v1 := skipn n1 v).
  assert (L1 : (n2 + n3 <= length v1)%nat) by (unfold v1; rewrite skipn_length; lia).
  set (c2 := if f_dist f then with_dist c1 (change (c_dist c1) (firstn (nd g) v1)) else c1).
  assert (E2 : (if f_dist f then do '(b, w) <- block (nd g) v1; Ok (with_dist c1 (change (c_dist c1) b), w) else Ok (c1, v1)) = Ok (c2, skipn n2 v1)).
  { unfold c2, n2. destruct (f_dist f); [ | reflexivity ]. rewrite block_ok by (unfold n2 in L1; lia). reflexivity. }
  rewrite E2. cbn [obind]. set (v2' := skipn n2 v1).
  assert (L2 : (n3 <= length v2')%nat) by (unfold v2'; rewrite skipn_length; lia).
  set (s' := if f_shut f then shutter_set (g_shutter g) (change (shutter_get (g_shutter g)) (firstn (shutter_dim (g_shutter g)) v2')) else g_shutter g).
  assert (E3 : (if f_shut f then do '(b, w) <- block (shutter_dim (g_shutter g)) v2';
                              Ok (shutter_set (g_shutter g) (change (shutter_get (g_shutter g)) b)) else Ok (g_shutter g)) = Ok s').
  { unfold s'. destruct (f_shut f); [ | reflexivity ]. rewrite block_ok by (unfold n3 in L2; lia). reflexivity. }
  assert (D1 : c_dist c1 = c_dist c) by (unfold c1; destruct (f_proj f); reflexivity).
  assert (I2 : c_intr c2 = c_intr c1) by (unfold c2; destruct (f_dist f); reflexivity).
  assert (M2' : c_model c2 = c_model c /\ c_width c2 = c_width c /\ c_height c2 = c_height c /\ c_pactive c2 = c_pactive c /\ c_dactive c2 = c_dactive c).
  { unfold c2, c1. destruct (f_dist f), (f_proj f); cbn; auto. }
  assert (LI : length (c_intr c2) = projection_dim (c_model c)).
  { rewrite I2. unfold c1. destruct (f_proj f) eqn:F; [ | exact S1 ]. cbn [with_intr c_intr]. rewrite CL; [ exact S1 | ].
    rewrite firstn_length. unfold n1, np in *. subst c. lia. }
  assert (LD : length (c_dist c2) = distortion_dim (c_model c)).
  { unfold c2. destruct (f_dist f) eqn:F; [ | rewrite D1; exact S2 ]. cbn [with_dist c_dist]. rewrite D1, CL; [ exact S2 | ].
    rewrite firstn_length. unfold n2, nd in *. subst c. lia. }
  assert (LS : length (shutter_get s') = length (shutter_get (g_shutter g))).
  { unfold s'. destruct (f_shut f) eqn:F; [ | reflexivity ]. rewrite shutter_change; [ apply CL | ]; rewrite firstn_length; rewrite ?shutter_get_length; unfold n3 in L2; lia. }
  assert (KS : sized (Geo c2 s') /\ sized (Geo c2 (g_shutter g))).
  { destruct M2' as (EMo & _). unfold sized. cbn [g_cam]. rewrite EMo. auto. }
  destruct (f_dist f && negb (accepted (c_model c2) (c_dist c2)))%bool eqn:T.
  - exists (Geo c2 (g_shutter g)), true. split; [ reflexivity | ]. split; [ apply KS | ].
    split; [ unfold same_kind; cbn [g_cam g_shutter]; fold c; tauto | ].
    split; [ | split; [ discriminate | ] ].
    + unfold get_parameters, other. cbn [g_cam g_shutter f_proj f_dist f_shut]. rewrite I2. unfold c2, c1. fold c.
      destruct (f_proj f), (f_dist f); reflexivity.
    + apply andb_true_iff in T. rewrite negb_true_iff in T. cbn [g_cam]. tauto.
  - rewrite E3. cbn [obind]. exists (Geo c2 s'), false. split; [ reflexivity | ]. split; [ apply KS | ].
    split; [ unfold same_kind; cbn [g_cam g_shutter]; fold c; tauto | ].
    split; [ | split ].
    + unfold get_parameters, other, s'. cbn [g_cam g_shutter f_proj f_dist f_shut]. rewrite I2. unfold c2, c1. fold c.
      destruct (f_proj f), (f_dist f), (f_shut f); reflexivity.
    + intros _. rewrite <- Nat.add_assoc, firstn_split, firstn_split. fold v1. fold v2'. unfold get_parameters. cbn [g_cam g_shutter]. fold c.
      assert (A1 : (if f_proj f then c_intr c2 else []) = change (if f_proj f then c_intr c else []) (firstn n1 v)).
      { rewrite I2. unfold c1, n1. destruct (f_proj f); [ reflexivity | symmetry; apply change_nil ]. }
      assert (A2 : (if f_dist f then c_dist c2 else []) = change (if f_dist f then c_dist c else []) (firstn n2 v1)).
      { unfold c2, n2. destruct (f_dist f); [ cbn [with_dist c_dist]; rewrite D1; reflexivity | symmetry; apply change_nil ]. }
      assert (A3 : (if f_shut f then shutter_get s' else []) = change (if f_shut f then shutter_get (g_shutter g) else []) (firstn n3 v2')).
      { unfold s', n3. destruct (f_shut f) eqn:F; [ | symmetry; apply change_nil ]. apply shutter_change. rewrite firstn_length. unfold n3 in L2. lia. }
      rewrite A1, A2, A3. rewrite CA, CA; [ reflexivity | | ].
      * rewrite firstn_length. unfold n2, nd in *. change (g_cam g) with c in L, L1 |- *. destruct (f_dist f); [ rewrite S2; lia | reflexivity ].
      * rewrite firstn_length. unfold n1, np in *. change (g_cam g) with c in L, L1 |- *. destruct (f_proj f); [ rewrite S1; lia | reflexivity ].
    + apply andb_false_iff in T. rewrite negb_false_iff in T. cbn [g_cam]. split; [ discriminate | ]. intros (A & B). destruct T; congruence.
Qed.
End Write.

Lemma set_spec g f v : sized g -> (minimal_dimensions g f <= length v)%nat ->
  exists g' thrown, set_parameters g f v = Ok (g', thrown) /\ sized g' /\ same_kind g' g /\
    get_parameters g' (other f) = get_parameters g (other f) /\
    (thrown = false -> get_parameters g' f = firstn (minimal_dimensions g f) v) /\
    (thrown = true <-> f_dist f = true /\ accepted (c_model (g_cam g')) (c_dist (g_cam g')) = false).
Proof. intros S L. apply (write_spec (fun _ b => b)); [ intros a b E; symmetry; exact E | reflexivity | exact S | exact L ]. Qed.
Lemma update_spec g f v : sized g -> (minimal_dimensions g f <= length v)%nat ->
  exists g' thrown, update_parameters g f v = Ok (g', thrown) /\ sized g' /\ same_kind g' g /\
    get_parameters g' (other f) = get_parameters g (other f) /\
    (thrown = false -> get_parameters g' f = vadd (get_parameters g f) (firstn (minimal_dimensions g f) v)) /\
    (thrown = true <-> f_dist f = true /\ accepted (c_model (g_cam g')) (c_dist (g_cam g')) = false).
Proof.
  intros S L. apply (write_spec vadd); [ intros a b E; rewrite vadd_length; lia | intros a a' b b' E; apply vadd_app; exact E | exact S | exact L ].
Qed.

(** The parameters determine the camera. *)
Lemma parameters_determine g h : sized g -> sized h -> same_kind g h ->
  (forall f, get_parameters g f = get_parameters h f) -> g = h.
Proof.
  intros _ _ (A & B & C & D & E & F) H. destruct g as [ [ ga gb gc gd ge gf gg ] gs ], h as [ [ ha hb hc hd he hf hg ] hs ]. cbn [g_cam g_shutter c_model c_width c_height c_pactive c_dactive] in *.
  assert (H1 := H (Flags true false false)). assert (H2 := H (Flags false true false)). assert (H3 := H (Flags false false true)).
  unfold get_parameters in H1, H2, H3. cbn [f_proj f_dist f_shut g_cam g_shutter c_intr c_dist app] in H1, H2, H3. rewrite !app_nil_r in *.
  assert (gs = hs) by (destruct gs, hs; cbn in *; try discriminate; congruence). congruence.
Qed.

(** ** Stacked Jacobians *)

Lemma put_at {A} n col (M J : list A) : (col + length J <= length M)%nat ->
  put n n 0 col M J = Ok (firstn col M ++ J ++ skipn (col + length J) M).
Proof. intros H. unfold put. rewrite Nat.ltb_irrefl. cbn [Nat.add orb]. destruct (Nat.ltb_spec (length M) (col + length J)); [ lia | reflexivity ]. Qed.
Lemma repeat_split {A} (x : A) a b : repeat x (a + b) = repeat x a ++ repeat x b.
Proof. apply repeat_app. Qed.
Lemma put_repeat {A} n (x : A) P J a : put n n 0 (length P) (P ++ repeat x (length J + a)) J = Ok (P ++ J ++ repeat x a).
Proof.
  rewrite put_at by (rewrite app_length, repeat_length; lia). f_equal. rewrite firstn_app, Nat.sub_diag, firstn_all, firstn_O, app_nil_r. f_equal. f_equal.
  rewrite skipn_app, skipn_all2 by lia. cbn [app]. replace (length P + length J - length P)%nat with (length J) by lia.
  rewrite repeat_split, skipn_app, skipn_all2 by (rewrite repeat_length; lia). rewrite repeat_length, Nat.sub_diag. reflexivity.
Qed.

Lemma stacked_spec g f ph A B : camera_intrinsicsJ (g_cam g) ph = Val A -> camera_coefficientsJ (g_cam g) ph = Val B ->
  length A = np g -> length B = nd g ->
  stackedJ false g f ph = Ok (Val ((if f_proj f then A else []) ++ (if f_dist f then B else []) ++ repeat (V2 0 0) (if f_shut f then shutter_dim (g_shutter g) else 0%nat))).
Proof.
  intros EA EB LA LB. unfold stackedJ, minimal_dimensions. rewrite EA, EB. cbn [put_res].
  set (n3 := if f_shut f then shutter_dim (g_shutter g) else 0%nat).
  destruct (f_proj f), (f_dist f).
  - assert (E1 := put_repeat 2 (V2 0 0) [] A (length B + n3)). cbn [length app] in E1. rewrite <- LA, <- LB, <- Nat.add_assoc, E1. cbn [obind].
    assert (E2 := put_repeat 2 (V2 0 0) A B n3). rewrite E2. reflexivity.
  - assert (E1 := put_repeat 2 (V2 0 0) [] A n3). cbn [length app] in E1. rewrite Nat.add_0_r, <- LA, E1. reflexivity.
  - assert (E1 := put_repeat 2 (V2 0 0) [] B n3). cbn [length app] in E1. cbn [obind Nat.add]. rewrite <- LB, E1. reflexivity.
  - reflexivity.
Qed.
Lemma stacked_swapped g f ph : (f_proj f && f_dist f = false)%bool -> stackedJ true g f ph = stackedJ false g f ph.
Proof.
  intros H. unfold stackedJ. destruct (f_proj f), (f_dist f); try discriminate; reflexivity.
Qed.
Lemma stacked_both g f ph A B : f_proj f = true -> f_dist f = true -> camera_intrinsicsJ (g_cam g) ph = Val A -> camera_coefficientsJ (g_cam g) ph = Val B ->
  stackedJ true g f ph = UB.
Proof.
  intros FP FD EA EB. unfold stackedJ. rewrite FP, FD, EA, EB. cbn [put_res].
  destruct (put 2 2 0 0 (repeat (V2 0 0) (minimal_dimensions g f)) A) as [ M | | | ] eqn:E; [ | | reflexivity | ].
  - cbn [obind]. unfold put. replace (2 <? np g + 2)%nat with true; [ reflexivity | ]. symmetry. apply Nat.ltb_lt. unfold np. destruct (c_model (g_cam g)); cbn; lia.
  - unfold put in E. destruct (_ || _)%bool in E; discriminate.
  - unfold put in E. destruct (_ || _)%bool in E; discriminate.
Qed.
