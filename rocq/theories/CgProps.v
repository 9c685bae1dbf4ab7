(** * C83, C84: cameras with masks, and their stacked parameters *)
From Coquelicot Require Import Coquelicot.
From Coq Require Import Reals List Lra Lia Arith ZArith Bool.
From Verif Require Import Base KinModel DistModel DistSpec DistProofs PinModel CamSpec PinProofs OmniModel EucmModel DsModel RpeModel RpeSpec RpeProofs RpeTerm RsModel RsProofs
  CgModel CgSpec CgProofs.
Import ListNotations.
Local Open Scope R_scope.

(** ** C83: masks *)

(** A point is reported visible exactly if the projection sees it and the mask
    is not black under its keypoint; the mask is never read outside. *)
Theorem C83_visible c m : covers m c ->
  (forall p, exists b, geo_project c m p = Ok b /\ (b = true <-> exists k, fst (eproject c p) = Val k /\ snd (eproject c p) = true /\ lets_through m k)) /\
  (forall p, exists b, geo_hproject c m p = Ok b /\ (b = true <-> exists k, fst (hproject c p) = Val k /\ snd (hproject c p) = true /\ lets_through m k)) /\
  (forall p, exists b, geo_hprojectJ c m p = Ok b /\
     (b = true <-> exists k, fst (fst (hprojectJ c p)) = Val k /\ snd (hprojectJ c p) = true /\ lets_through m k)) /\
  (forall p k, fst (eproject c p) = Val k -> snd (eproject c p) = true -> inside_image c k).
Proof.
  intros C. split; [ intros p; exact (masked_spec m c _ C (eproject_honest c p)) | ].
  split; [ intros p; exact (masked_spec m c _ C (hproject_honest c p)) | ].
  split; [ intros p; exact (masked_spec m c _ C (hprojectJ_honest c p)) | ].
  intros p k E S. destruct (eproject_honest c p S) as (y & E' & I). assert (y = k) by congruence. subst y. exact I.
Qed.

(** Inside the image a keypoint is valid exactly if the mask is not black there,
    and can be lifted exactly if moreover the projection can; outside a pinhole
    camera lifts nothing, and without a mask every keypoint may be asked. *)
Theorem C83_keypoints c m k : covers m c ->
  (inside_image c k ->
     exists b, geo_valid c m k = Ok b /\ (b = true <-> lets_through m k) /\
       (b = true -> exists l, geo_lift c m k = Ok l /\ (l = true <-> snd (lift c k) = true)) /\
       (b = false -> geo_lift c m k = Ok false)) /\
  (forall l, c_model c = Pinhole l -> ~ inside_image c k -> geo_lift c m k = Ok false) /\
  (exists b, geo_valid c NoMask k = Ok b /\ (b = true <-> inside_image c k)).
Proof.
  intros C. split; [ | split ].
  - intros I. destruct (mask_inside m c k C I) as (b & E & S). exists b. unfold geo_valid, geo_lift. rewrite E. cbn [obind].
    rewrite (proj2 (on_image_spec c k) I), andb_true_r. split; [ reflexivity | split; [ exact S | ] ]. split.
    + intros ->. destruct (snd (lift c k)); [ exists true | exists false ]; (split; [ reflexivity | split; congruence ]).
    + intros ->. destruct (snd (lift c k)); reflexivity.
  - intros l EM N. unfold geo_lift, lift. rewrite EM. unfold pin_lift. cbn [snd].
    destruct (on_sensor _ k) eqn:O; [ | reflexivity ]. exfalso. apply N. apply on_sensor_spec in O. exact O.
  - exists (on_image c k). split; [ reflexivity | apply on_image_spec ].
Qed.

(** A mask given as a matrix of bytes is what comes back, and decides. *)
Theorem C83_matrix rows cols M r c k : (0 <= r < rows)%Z -> (0 <= c < cols)%Z -> (rows <= 2147483647)%Z -> (cols <= 2147483647)%Z ->
  (0 <= M r c <= 255)%Z -> IZR r <= u1 k < IZR r + 1 -> IZR c <= u0 k < IZR c + 1 ->
  matrix_of_picture (picture_of_matrix rows cols M) r c = M r c /\
  mask_valid (ImageMask (Some (picture_of_matrix rows cols M)) 1) k = Ok (negb (M r c =? 0)%Z).
Proof.
  intros HR HC LR LC B K1 K0. assert (EM : (M r c mod 256)%Z = M r c) by (apply Z.mod_small; lia).
  split; [ exact EM | ]. cbn [mask_valid].
  assert (P0 : 0 <= IZR r) by (apply IZR_le; lia). assert (P1 : 0 <= IZR c) by (apply IZR_le; lia).
  assert (P2 : IZR r + 1 <= IZR rows) by (rewrite <- plus_IZR; apply IZR_le; lia). assert (P3 : IZR c + 1 <= IZR cols) by (rewrite <- plus_IZR; apply IZR_le; lia).
  destruct (to_i32_nonneg (u1 k * 1) rows) as (z1 & E1 & B1 & F1); [ lra | exact LR | ].
  destruct (to_i32_nonneg (u0 k * 1) cols) as (z0 & E0 & B0 & F0); [ lra | exact LC | ].
  assert (z1 = r).
  { assert ((z1 < r + 1)%Z) by (apply lt_IZR; rewrite plus_IZR; lra). assert ((r < z1 + 1)%Z) by (apply lt_IZR; rewrite plus_IZR; lra). lia. }
  assert (z0 = c).
  { assert ((z0 < c + 1)%Z) by (apply lt_IZR; rewrite plus_IZR; lra). assert ((c < z0 + 1)%Z) by (apply lt_IZR; rewrite plus_IZR; lra). lia. }
  subst z1 z0. rewrite E1, E0. cbn [obind]. unfold pixel, picture_of_matrix. cbn [p_rows p_cols p_at].
  replace ((0 <=? r) && (r <? rows) && (0 <=? c) && (c <? cols))%Z%bool with true by lia. cbn [obind]. rewrite EM. f_equal.
  destruct (Z.eqb_spec (M r c) 0), (Z.ltb_spec 0 (M r c)); try reflexivity; lia.
Qed.

Definition centred (P : projection) (k : list R) : camera := Camera P 10 10 k [] true true.
Definition straight : camera := centred (Pinhole NoLens) [1; 1; 5; 5].
Definition wide : camera := centred (Omnidirectional NoLens) [0; 1; 1; 5; 5].
Definition black : mask := ImageMask (Some (Picture 10 10 (fun _ _ => 0%Z))) 1.
Lemma black_covers c : c_width c = 10%Z -> c_height c = 10%Z -> covers black c.
Proof. intros W H. unfold covers, black. rewrite W, H. cbn [p_rows p_cols]. split; [ lra | ]. split; [ lra | ]. split; [ lra | ]. lia. Qed.
Lemma to_i32_at x z : IZR z <= x < IZR z + 1 -> (0 <= z < 2147483647)%Z -> to_i32 x = Ok z.
Proof.
  intros B Z. assert (0 <= IZR z) by (apply IZR_le; lia).
  destruct (to_i32_nonneg x (z + 1)) as (y & E & By & F); [ rewrite plus_IZR; lra | lia | ].
  assert ((y < z + 1)%Z) by (apply lt_IZR; rewrite plus_IZR; lra). assert ((z < y + 1)%Z) by (apply lt_IZR; rewrite plus_IZR; lra).
  assert (y = z) by lia. congruence.
Qed.
Lemma straight_seen : eproject straight (V3 0 0 1) = (Val (V2 5 5), true).
Proof.
  unfold eproject, straight, centred. cbn [c_model c_intr c_dist c_width c_height]. unfold pin_project. cbn [x0 x1 x2]. destruct (Req_EM_T 1 0); [ lra | ].
  cbn [lens_of nodist distort]. unfold to_pixel, pin_set, sensor, make_intr. cbn [fu fv cu cv nth u0 u1]. 
  replace (1 * (0 * (1 / 1)) + 5) with 5 by field. f_equal. apply andb_true_iff. split; [ | apply ltb_spec; lra ].
  apply on_sensor_spec. unfold in_image. cbn [ru rv u0 u1]. lra.
Qed.

(** Outside the image the mask is read before the image size is looked at, and
    an omnidirectional camera lifts keypoints outside as well. *)
Theorem C83_outside_refuted : exists k, covers black straight /\ covers black wide /\ ~ inside_image straight k /\
  geo_valid straight black k = UB /\ geo_lift wide black k = UB.
Proof.
  exists (V2 20 5). split; [ apply black_covers; reflexivity | ]. split; [ apply black_covers; reflexivity | ].
  split; [ unfold inside_image, straight, centred; cbn; lra | ].
  assert (E : mask_valid black (V2 20 5) = UB).
  { unfold mask_valid, black. cbn [u0 u1]. rewrite (to_i32_at (5 * 1) 5), (to_i32_at (20 * 1) 20) by (try lra; lia). reflexivity. }
  split; [ unfold geo_valid; rewrite E; reflexivity | ]. unfold geo_lift.
  replace (snd (lift wide (V2 20 5))) with true; [ exact E | ]. symmetry.
  unfold lift, wide, centred. cbn [c_model c_intr c_dist c_width c_height]. unfold omni_lift, omni_norm, omni_camera, omni_set, make_omni. cbn [oi xi nth fu fv cu cv make_intr].
  destruct (Req_EM_T 1 0); [ lra | ]. cbn [rbind lens_of nodist undistort]. unfold omni_liftable2. cbn [xi]. 
  replace (leb 0 1) with true by (symmetry; apply leb_spec; lra). cbn [orb].
  destruct (Rlt_dec _ _); [ reflexivity | ]. destruct (Req_EM_T _ _); reflexivity.
Qed.

(** The two ways to ask for visibility disagree about masked points. *)
Theorem C83_virtual_refuted : exists p, covers black straight /\ vs_visible straight p = true /\ geo_project straight black p = Ok false.
Proof.
  exists (V3 0 0 1). split; [ apply black_covers; reflexivity | ]. unfold vs_visible, geo_project. rewrite straight_seen. split; [ reflexivity | ].
  unfold masked. cbn [fst snd]. unfold mask_valid, black. cbn [u0 u1]. rewrite (to_i32_at (5 * 1) 5) by (try lra; lia). reflexivity.
Qed.

(** With numerical Jacobians every point is reported visible. *)
Theorem C83_finite_difference_refuted : exists p, geo_hproject straight NoMask p = Ok false /\ geo_hproject_fd straight p = Ok true.
Proof.
  exists (V4 0 0 (-1) 1). split; [ | reflexivity ]. unfold geo_hproject. rewrite hproject_eproject. unfold facing. cbn [q3]. destruct (Rlt_dec 1 0); [ lra | ].
  unfold head3, eproject, straight, centred. cbn [c_model c_intr c_dist c_width c_height q0 q1 q2]. unfold pin_project. cbn [x0 x1 x2]. destruct (Req_EM_T (-1) 0); [ lra | ].
  unfold masked. cbn [fst snd]. replace (ltb 0 (-1)) with false; [ rewrite andb_false_r; reflexivity | ]. unfold ltb. destruct (Rlt_dec 0 (-1)); [ lra | reflexivity ].
Qed.

(** Pictures compare equal exactly if their sizes and all their pixels agree, and then
    masks of one scale treat every keypoint alike. *)
Theorem C83_equal : forall a b,
  (picture_same a b = true <->
   p_rows a = p_rows b /\ p_cols a = p_cols b /\
   (forall r c, (0 <= r < p_rows a)%Z -> (0 <= c < p_cols a)%Z -> p_at a r c = p_at b r c)) /\
  (picture_same a b = true -> forall s k,
   mask_valid (ImageMask (Some a) s) k = mask_valid (ImageMask (Some b) s) k).
Proof.
  intros a b.
  assert (In_ix : forall n x, In x (indices n) <-> (0 <= x < n)%Z).
  { intros n x. unfold indices. rewrite in_map_iff. split.
    - intros (i & E & I). apply in_seq in I. lia.
    - intros B. exists (Z.to_nat x). split; [lia|]. apply in_seq. lia. }
  assert (Q : picture_same a b = true <->
   p_rows a = p_rows b /\ p_cols a = p_cols b /\
   (forall r c, (0 <= r < p_rows a)%Z -> (0 <= c < p_cols a)%Z -> p_at a r c = p_at b r c)).
  { unfold picture_same. rewrite !andb_true_iff, !Z.eqb_eq, forallb_forall. split.
    - intros ((E & F) & H). split; [exact E|]. split; [exact F|]. intros r c Hr Hc.
      pose proof (H r (proj2 (In_ix _ _) Hr)) as G. rewrite forallb_forall in G.
      apply Z.eqb_eq, G, In_ix, Hc.
    - intros (E & F & H). split; [split; assumption|]. intros r Hr. apply In_ix in Hr.
      apply forallb_forall. intros c Hc. apply In_ix in Hc. apply Z.eqb_eq, H; assumption. }
  split; [exact Q|]. intros S s k. apply Q in S. destruct S as (E & F & H).
  unfold mask_valid. destruct (to_i32 (u1 k * s)) as [k1| | |]; cbn [obind]; try reflexivity.
  destruct (to_i32 (u0 k * s)) as [k0| | |]; cbn [obind]; try reflexivity.
  unfold pixel. rewrite <- E, <- F.
  destruct ((0 <=? k1) && (k1 <? p_rows a) && (0 <=? k0) && (k0 <? p_cols a))%Z%bool eqn:B; [|reflexivity].
  rewrite !andb_true_iff, !Z.leb_le, !Z.ltb_lt in B. rewrite H by lia. reflexivity.
Qed.

(** Masks that compare equal may hide different keypoints: the scale is not
    compared; and a matrix entry of 256 is black. *)
Theorem C83_equal_refuted : exists a b k, mask_same a b = true /\ mask_valid a k = Ok true /\ mask_valid b k = Ok false.
Proof.
  set (p := Picture 10 10 (fun _ c => if (c <? 3)%Z then 0 else 255)%Z).
  exists (ImageMask (Some p) 1), (ImageMask (Some p) (1 / 2)), (V2 5 5). split; [ reflexivity | ].
  unfold mask_valid. cbn [u0 u1]. rewrite (to_i32_at (5 * 1) 5) by (try lra; lia). rewrite (to_i32_at (5 * (1 / 2)) 2) by (try lra; lia).
  split; reflexivity.
Qed.
Theorem C83_matrix_refuted : exists M k, (forall r c, 0 < M r c)%Z /\ mask_valid (ImageMask (Some (picture_of_matrix 10 10 M)) 1) k = Ok false.
Proof.
  exists (fun _ _ => 256%Z), (V2 5 5). split; [ lia | ]. unfold mask_valid. cbn [u0 u1]. rewrite (to_i32_at (5 * 1) 5) by (try lra; lia). reflexivity.
Qed.

Example C83_ex_visible : covers (ImageMask (Some (picture_of_matrix 5 5 (fun r c => if (r <? 3) then 255 else 0)%Z)) (1 / 2)) straight /\
  geo_project straight (ImageMask (Some (picture_of_matrix 5 5 (fun r c => if (r <? 3) then 255 else 0)%Z)) (1 / 2)) (V3 0 0 1) = Ok true /\
  inside_image straight (V2 5 5).
Proof.
  split; [ unfold covers, straight, centred; cbn [p_rows p_cols picture_of_matrix c_width c_height]; split; [ lra | split; [ lra | split; [ lra | lia ] ] ] | ].
  split; [ | unfold inside_image, straight, centred; cbn; lra ].
  unfold geo_project. rewrite straight_seen. unfold masked, mask_valid. cbn [fst snd u0 u1]. rewrite (to_i32_at (5 * (1 / 2)) 2) by (try lra; lia). reflexivity.
Qed.

(** ** C84: parameters *)

(** The number of parameters is the length of the parameter vector. *)
Theorem C84_dimensions g f : sized g -> length (get_parameters g f) = minimal_dimensions g f /\
  minimal_dimensions g everything = (projection_dim (c_model (g_cam g)) + distortion_dim (c_model (g_cam g)) + length (shutter_get (g_shutter g)))%nat.
Proof. intros S. split; [ exact (get_length g f S) | ]. rewrite shutter_get_length. reflexivity. Qed.

(** Setting estimated parameters sets them and leaves the others alone. *)
Theorem C84_set g f v : sized g -> length v = minimal_dimensions g f ->
  exists g' thrown, set_parameters g f v = Ok (g', thrown) /\ sized g' /\ same_kind g' g /\
    get_parameters g' (other f) = get_parameters g (other f) /\ (thrown = false -> get_parameters g' f = v) /\
    (thrown = true <-> f_dist f = true /\ accepted (c_model (g_cam g')) (c_dist (g_cam g')) = false).
Proof.
  intros S L. destruct (set_spec g f v S ltac:(lia)) as (g' & t & E & S' & K & O & A & T). exists g', t.
  split; [ exact E | split; [ exact S' | split; [ exact K | split; [ exact O | split; [ | exact T ] ] ] ] ].
  intros F. rewrite (A F), <- L. apply firstn_all.
Qed.

(** Reading and setting again changes nothing. *)
Theorem C84_round_trip g f : sized g -> accepted (c_model (g_cam g)) (c_dist (g_cam g)) = true ->
  set_parameters g f (get_parameters g f) = Ok (g, false).
Proof.
  intros S AC. assert (S' := S). destruct S' as (S1 & S2). destruct g as [ [ P w h k d pa da ] s ]. cbn [g_cam c_model c_intr c_dist] in *.
  unfold set_parameters, write, get_parameters, np, nd. cbn [g_cam g_shutter c_model c_intr c_dist].
  assert (B1 : forall r, block (projection_dim P) (k ++ r) = Ok (k, r)).
  { intros r. rewrite block_ok by (rewrite app_length; lia). rewrite <- S1, firstn_app, Nat.sub_diag, firstn_all, firstn_O, app_nil_r, skipn_app, skipn_all, Nat.sub_diag. reflexivity. }
  assert (B2 : forall r, block (distortion_dim P) (d ++ r) = Ok (d, r)).
  { intros r. rewrite block_ok by (rewrite app_length; lia). rewrite <- S2, firstn_app, Nat.sub_diag, firstn_all, firstn_O, app_nil_r, skipn_app, skipn_all, Nat.sub_diag. reflexivity. }
  assert (B3 : block (shutter_dim s) (shutter_get s) = Ok (shutter_get s, [])) by (destruct s; reflexivity).
  assert (SS : shutter_set s (shutter_get s) = s) by (destruct s; reflexivity).
  destruct (f_proj f); rewrite ?B1; cbn [obind app]; destruct (f_dist f); rewrite ?B2; cbn [obind app andb]; unfold with_intr, with_dist; cbn [c_model c_intr c_dist c_width c_height c_pactive c_dactive];
    rewrite ?AC; cbn [negb]; destruct (f_shut f); rewrite ?B3; cbn [obind]; rewrite ?SS; reflexivity.
Qed.

(** An update adds its numbers to the estimated parameters and leaves the others alone. *)
Theorem C84_update g f v : sized g -> length v = minimal_dimensions g f ->
  exists g' thrown, update_parameters g f v = Ok (g', thrown) /\ sized g' /\ same_kind g' g /\
    get_parameters g' (other f) = get_parameters g (other f) /\
    (thrown = false -> forall i, (i < minimal_dimensions g f)%nat -> nth i (get_parameters g' f) 0 = nth i (get_parameters g f) 0 + nth i v 0) /\
    (thrown = true <-> f_dist f = true /\ accepted (c_model (g_cam g')) (c_dist (g_cam g')) = false).
Proof.
  intros S L. destruct (update_spec g f v S ltac:(lia)) as (g' & t & E & S' & K & O & A & T). exists g', t.
  split; [ exact E | split; [ exact S' | split; [ exact K | split; [ exact O | split; [ | exact T ] ] ] ] ].
  intros F i I. rewrite (A F), <- L, firstn_all. assert (LG := get_length g f S). revert I. rewrite <- LG in L |- *. clear - L.
  revert v L i. generalize (get_parameters g f). intros a. induction a as [ | x a IH ]; intros [ | y b ] L i I; cbn [length] in *; try lia.
  - cbn [vadd]. destruct i as [ | i ]; [ reflexivity | ]. cbn [nth]. apply IH; lia.
Qed.

(** The stacked Jacobian has one column per estimated parameter: those of the
    projection, those of the distortion, and zeros for the shutter. *)
Theorem C84_jacobian g f ph : regular (g_cam g) ph ->
  exists A B cols, geo_hintrinsicsJ g f ph = Ok (Val cols) /\ length cols = minimal_dimensions g f /\
    cols = (if f_proj f then A else []) ++ (if f_dist f then B else []) ++ repeat (V2 0 0) (if f_shut f then length (shutter_get (g_shutter g)) else 0%nat) /\
    image_param_jacobian (projection_dim (c_model (g_cam g))) (fun w => camera_image (with_intr (g_cam g) w) ph) (c_intr (g_cam g)) A /\
    image_param_jacobian (distortion_dim (c_model (g_cam g))) (fun w => camera_image (with_dist (g_cam g) w) ph) (c_dist (g_cam g)) B.
Proof.
  intros REG. destruct (regular_facing _ _ REG) as (LI & LD & NZ & SMO).
  destruct (camera_at (c_width (g_cam g)) (c_height (g_cam g)) _ _ _ _ LD NZ SMO) as (_ & _ & (A & EA & HA) & (B & EB & HB)).
  exists A, B. eexists. split; [ exact (stacked_spec g f ph A B EA EB (proj1 HA) (proj1 HB)) | ]. split.
  - rewrite !app_length, repeat_length. unfold minimal_dimensions. destruct HA as (LA & _), HB as (LB & _).
    unfold np, nd. destruct (f_proj f), (f_dist f); cbn [length]; rewrite ?LA, ?LB; lia.
  - rewrite shutter_get_length. split; [ reflexivity | split; [ exact HA | exact HB ] ].
Qed.

(** The version for Euclidean points agrees as long as not both the projection
    and the distortion are estimated. *)
Theorem C84_euclidean g f p : (f_proj f && f_dist f = false)%bool ->
  geo_intrinsicsJ g f p = geo_hintrinsicsJ g f (V4 (x0 p) (x1 p) (x2 p) 1).
Proof. intros H. apply stacked_swapped. exact H. Qed.
(** Otherwise it writes outside its matrix, for every camera and regular point. *)
Theorem C84_euclidean_refuted g f p : regular (g_cam g) (V4 (x0 p) (x1 p) (x2 p) 1) -> f_proj f = true -> f_dist f = true ->
  geo_intrinsicsJ g f p = UB.
Proof.
  intros REG FP FD. destruct (regular_facing _ _ REG) as (LI & LD & NZ & SMO).
  destruct (camera_at (c_width (g_cam g)) (c_height (g_cam g)) _ _ _ _ LD NZ SMO) as (_ & _ & (A & EA & HA) & (B & EB & HB)).
  exact (stacked_both g f _ A B FP FD EA EB).
Qed.

(** The Jacobian of the time offset of a rolling shutter: the row in the column
    of the line delay, zero elsewhere. *)
Theorem C84_offset g f k d : sized g -> g_shutter g = Rolling d ->
  exists row, offsetJ g f k = Ok row /\ length row = minimal_dimensions g f /\
    forall i, nth i row 0 = if f_shut f then (if Nat.eq_dec i (minimal_dimensions g (Flags (f_proj f) (f_dist f) false)) then u1 k else 0) else 0.
Proof.
  intros S ES. unfold offsetJ, minimal_dimensions. cbn [f_proj f_dist f_shut]. rewrite ES. cbn [shutter_dim].
  set (n := ((if f_proj f then np g else 0) + (if f_dist f then nd g else 0))%nat). destruct (f_shut f).
  - assert (E := put_repeat 1 0 (repeat 0 n) [u1 k] 0). rewrite repeat_length in E. cbn [length Nat.add repeat app] in E.
    rewrite repeat_app. cbn [repeat]. rewrite E. eexists. split; [ reflexivity | ]. split; [ rewrite app_length, repeat_length; reflexivity | ].
    intros i. rewrite Nat.add_0_r. destruct (Nat.eq_dec i n) as [ -> | N ].
    + rewrite app_nth2 by (rewrite repeat_length; lia). rewrite repeat_length, Nat.sub_diag. reflexivity.
    + destruct (Nat.lt_ge_cases i n).
      * rewrite app_nth1 by (rewrite repeat_length; lia). apply nth_repeat.
      * apply nth_overflow. rewrite app_length, repeat_length. cbn [length]. lia.
  - rewrite Nat.add_0_r. eexists. split; [ reflexivity | ]. split; [ apply repeat_length | ]. intros i. apply nth_repeat.
Qed.
Theorem C84_global_refuted g f k : g_shutter g = Global -> f_shut f = true -> offsetJ g f k = UB.
Proof. intros ES FS. unfold offsetJ. rewrite FS, ES. reflexivity. Qed.

(** A refused update leaves the camera changed: the projection is updated, the
    distortion holds the refused number. *)
Theorem C84_refused_refuted : exists g v g', sized g /\ accepted (c_model (g_cam g)) (c_dist (g_cam g)) = true /\
  update_parameters g everything v = Ok (g', true) /\ accepted (c_model (g_cam g')) (c_dist (g_cam g')) = false /\
  get_parameters g' (Flags true false false) <> get_parameters g (Flags true false false) /\
  get_parameters g' (Flags false false true) = get_parameters g (Flags false false true).
Proof.
  set (cam := Camera (Pinhole FieldOfView) 10 10 [1; 1; 5; 5] [1] true true).
  exists (Geo cam (Rolling 0)), [1; 0; 0; 0; 1; 1], (Geo (with_dist (with_intr cam [1 + 1; 1 + 0; 5 + 0; 5 + 0]) [1 + 1]) (Rolling 0)).
  assert (A1 : accepted (Pinhole FieldOfView) [1] = true).
  { unfold accepted. cbn [nth]. destruct (Rlt_dec _ _); [ reflexivity | ]. destruct (Rle_dec (1 / 2) 1); [ | lra ]. destruct (Rle_dec 1 (3 / 2)); [ reflexivity | lra ]. }
  assert (A2 : accepted (Pinhole FieldOfView) [1 + 1] = false).
  { unfold accepted. cbn [nth]. destruct (Rlt_dec _ _) as [ H | _ ].
    - exfalso. rewrite Rabs_pos_eq in H by lra. assert (1 / 10 ^ 16 <= 1); [ | lra ].
      apply (Rmult_le_reg_r (10 ^ 16)); [ apply pow_lt; lra | ]. unfold Rdiv. rewrite Rmult_assoc, Rinv_l by (apply pow_nonzero; lra). assert (1 <= 10 ^ 16) by (apply pow_R1_Rle; lra). lra.
    - destruct (Rle_dec (1 / 2) (1 + 1)); [ | reflexivity ]. destruct (Rle_dec (1 + 1) (3 / 2)); [ lra | reflexivity ]. }
  split; [ split; reflexivity | ]. split; [ exact A1 | ]. split.
  { unfold update_parameters, write. cbn [everything f_proj f_dist f_shut]. unfold np, nd, cam. cbn [g_cam c_model projection_dim distortion_dim lens_dim].
    unfold block. cbn [length Nat.ltb Nat.leb firstn skipn obind]. unfold with_intr, with_dist. cbn [c_model c_width c_height c_intr c_dist c_pactive c_dactive vadd].
    rewrite A2. reflexivity. }
  split; [ exact A2 | ]. split; [ | reflexivity ]. unfold get_parameters, cam. cbn. intros H. assert (X := f_equal (fun l => nth 0 l 0) H). cbn in X. lra.
Qed.

Example C84_ex : sized (Geo (Camera (Pinhole RadTan) 752 480 [460; 458; 367; 248] [-0.28; 0.07; 0; 0] true true) (Rolling (1 / 20000))) /\
  regular (Camera (Pinhole RadTan) 752 480 [460; 458; 367; 248] [-0.28; 0.07; 0; 0] true true) (V4 (1 / 10) (2 / 10) 1 1) /\
  minimal_dimensions (Geo (Camera (Pinhole RadTan) 752 480 [460; 458; 367; 248] [-0.28; 0.07; 0; 0] true true) (Rolling (1 / 20000))) everything = 9%nat.
Proof.
  split; [ split; reflexivity | ]. split; [ | reflexivity ]. split; [ reflexivity | split; [ reflexivity | ] ].
  cbn [c_model c_intr c_dist q0 q1 q2 q3 smooth_at x2 lens_regular]. split; [ lra | split; [ intros _; split; [ lra | exact Logic.I ] | lra ] ].
Qed.

Print Assumptions C83_visible.
Print Assumptions C83_keypoints.
Print Assumptions C83_matrix.
Print Assumptions C83_outside_refuted.
Print Assumptions C83_virtual_refuted.
Print Assumptions C83_finite_difference_refuted.
Print Assumptions C83_equal.
Print Assumptions C83_equal_refuted.
Print Assumptions C83_matrix_refuted.
Print Assumptions C84_dimensions.
Print Assumptions C84_set.
Print Assumptions C84_round_trip.
Print Assumptions C84_update.
Print Assumptions C84_jacobian.
Print Assumptions C84_euclidean.
Print Assumptions C84_euclidean_refuted.
Print Assumptions C84_offset.
Print Assumptions C84_global_refuted.
Print Assumptions C84_refused_refuted.
