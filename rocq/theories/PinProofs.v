(** * Proofs about the pinhole projection *)

From Coquelicot Require Import Coquelicot.
From Coq Require Import Reals List Psatz ZArith Bool.
From Verif Require Import KinModel KinSpec KinProofs KinExp KinCurve DistModel DistSpec DistProofs DistUndist PinModel CamSpec.
Import ListNotations.
Local Open Scope R_scope.

Ltac req := match goal with |- @eq _ ?l ?r => change (@eq R l r) end; cbv beta.

Lemma leb_spec a b : leb a b = true <-> a <= b.
Proof. unfold leb. destruct (Rle_dec a b); split; intros; try reflexivity; try assumption; try discriminate; contradiction. Qed.
Lemma on_sensor_spec C k : on_sensor C k = true <-> in_image C k.
Proof.
  unfold on_sensor, in_image. rewrite !andb_true_iff, !leb_spec, !ltb_spec. tauto.
Qed.
Lemma bool_eq_iff (a b : bool) : (a = true <-> b = true) -> a = b.
Proof. destruct a, b; intros (A & B); try reflexivity; [symmetry; apply A; reflexivity | apply B; reflexivity]. Qed.

(** A coordinate that is not zero stays away from zero for a while. *)
Lemma locally_neq0 (f : R -> R) t d : is_derive f t d -> f t <> 0 -> locally t (fun s => f s <> 0).
Proof.
  intros H N. assert (C : continuous (fun s => f s * f s) t).
  { apply (continuous_mult f f); eapply derive_continuous; eassumption. }
  assert (P : 0 < f t * f t) by nra.
  eapply filter_imp; [ | exact (locally_gt _ t _ C P)]. cbv beta. intros s Hs E. rewrite E in Hs. lra.
Qed.

Lemma perspective_derive (x y z : R -> R) (t dx dy dz : R) :
  is_derive x t dx -> is_derive y t dy -> is_derive z t dz -> z t <> 0 ->
  v2_derive (fun s => V2 (x s * (1 / z s)) (y s * (1 / z s))) t
    (V2 (dx * (1 / z t) - x t * dz * (1 / z t * (1 / z t))) (dy * (1 / z t) - y t * dz * (1 / z t * (1 / z t)))).
Proof.
  intros X Y Z N. derive_ex X. derive_ex Y. derive_ex Z. split; cbn [u0 u1]; auto_derive; try tauto;
    derive_sub X; derive_sub Y; derive_sub Z; req; field; exact N.
Qed.

Lemma to_pixel_derive C (g : R -> v2) t d : v2_derive g t d ->
  v2_derive (fun s => to_pixel C (g s)) t (V2 (fu C * u0 d) (fv C * u1 d)).
Proof.
  intros (A & B). unfold to_pixel. split; cbn [u0 u1].
  - eapply is_derive_eq; [ | exact (is_derive_plus _ _ t _ _ (is_derive_scal (fun s => u0 (g s)) t (fu C) _ A) (@is_derive_const R_AbsRing R_NormedModule (cu C) t))].
    req. unfold plus, zero; cbn. ring.
  - eapply is_derive_eq; [ | exact (is_derive_plus _ _ t _ _ (is_derive_scal (fun s => u1 (g s)) t (fv C) _ B) (@is_derive_const R_AbsRing R_NormedModule (cv C) t))].
    req. unfold plus, zero; cbn. ring.
Qed.

Definition normalised (p : v3) : v2 := V2 (x0 p * (1 / x2 p)) (x1 p * (1 / x2 p)).
Lemma pin_project_front D C p : x2 p <> 0 ->
  pin_project D C p = (Val (to_pixel C (distort D (normalised p))), (on_sensor C (to_pixel C (distort D (normalised p))) && ltb 0 (x2 p))%bool).
Proof. intros N. unfold pin_project. destruct (Req_EM_T (x2 p) 0); [contradiction | reflexivity]. Qed.

(** The Jacobian of the image of a point. *)
Lemma pin_point_jacobian D C p Jd J : x2 p <> 0 ->
  snd (distortJ D (normalised p)) = Val Jd -> jacobian (distort D) (normalised p) Jd ->
  snd (fst (pin_projectJ D C p)) = Val J ->
  point_jacobian (fun q => fst (pin_project D C q)) p J.
Proof.
  intros N ED HJ E c t d Ec (A & B & Z). subst p.
  exists (fun s => to_pixel C (distort D (normalised (c s)))). split.
  { eapply filter_imp; [ | exact (locally_neq0 _ t _ Z N)]. cbv beta. intros s Hs. rewrite (pin_project_front D C (c s) Hs). reflexivity. }
  assert (P := perspective_derive _ _ _ t _ _ _ A B Z N).
  assert (H := HJ (fun s => normalised (c s)) t _ eq_refl P).
  eapply v2_derive_eq; [ | exact (to_pixel_derive C _ t _ H)].
  unfold pin_projectJ in E. destruct (Req_EM_T (x2 (c t)) 0); [contradiction | ].
  change (V2 (x0 (c t) * (1 / x2 (c t))) (x1 (c t) * (1 / x2 (c t)))) with (normalised (c t)) in E.
  destruct (distortJ D (normalised (c t))) as [kp Jr]. cbn [snd] in ED. subst Jr. cbn [rbind fst snd] in E.
  match type of E with Val ?m = Val _ => assert (EJ : J = m) by congruence end. clear E. subst J.
  unfold m23_vec, m2_vec. cbn [u0 u1 j00 j01 j02 j10 j11 j12]. f_equal; ring.
Qed.

(** The overload with the Jacobian returns the same image and flag. *)
Lemma pin_overloads D C p : (forall y, fst (distortJ D y) = distort D y) ->
  fst (fst (pin_projectJ D C p)) = fst (pin_project D C p) /\ snd (pin_projectJ D C p) = snd (pin_project D C p).
Proof.
  intros H. unfold pin_projectJ, pin_project. destruct (Req_EM_T (x2 p) 0); [split; reflexivity | ].
  assert (E := H (V2 (x0 p * (1 / x2 p)) (x1 p * (1 / x2 p)))).
  destruct (distortJ D (V2 (x0 p * (1 / x2 p)) (x1 p * (1 / x2 p)))) as [kp Jd]. cbn [fst] in E. subst kp. split; reflexivity.
Qed.
Lemma pin_lift_overloads D C k : (forall y x J, undistortJ D y = Val (x, J) -> undistort D y = Val x) ->
  forall p K, fst (pin_liftJ D C k) = Val (p, K) -> fst (pin_lift D C k) = Val p /\ snd (pin_liftJ D C k) = snd (pin_lift D C k).
Proof.
  intros H p K E. unfold pin_liftJ, pin_lift in *. cbn [fst snd] in *. split; [ | reflexivity].
  destruct (pin_norm C k) as [kp | | | ]; cbn [rbind] in *; try discriminate.
  destruct (undistortJ D kp) as [[y J] | | | ] eqn:EU; cbn [rbind fst snd] in E; try discriminate.
  rewrite (H _ _ _ EU). cbn [rbind]. congruence.
Qed.

(** Round trips. *)
Lemma pin_norm_pixel C y : fu C <> 0 -> fv C <> 0 -> pin_norm C (to_pixel C y) = Val y.
Proof.
  intros A B. unfold pin_norm, to_pixel. destruct (Req_EM_T (fu C) 0); [contradiction | ].
  destruct (Req_EM_T (fv C) 0); [contradiction | ]. cbn [u0 u1]. f_equal. destruct y as [a b]. cbn [u0 u1]. f_equal; field; assumption.
Qed.
Lemma pixel_pin_norm C k y : pin_norm C k = Val y -> to_pixel C y = k.
Proof.
  unfold pin_norm, to_pixel. destruct (Req_EM_T (fu C) 0); [discriminate | ]. destruct (Req_EM_T (fv C) 0); [discriminate | ].
  intros E. assert (E' : y = V2 ((u0 k - cu C) / fu C) ((u1 k - cv C) / fv C)) by congruence. subst y. cbn [u0 u1].
  destruct k as [a b]. cbn [u0 u1]. f_equal; field; assumption.
Qed.

Lemma pin_lift_project D C p k b : fu C <> 0 -> fv C <> 0 ->
  undistort D (distort D (normalised p)) = Val (normalised p) ->
  pin_project D C p = (Val k, b) -> x2 p <> 0 /\ fst (pin_lift D C k) = Val (along_ray (1 / x2 p) p) /\ (b = true -> snd (pin_lift D C k) = true).
Proof.
  intros A B H E. assert (N : x2 p <> 0) by (unfold pin_project in E; destruct (Req_EM_T (x2 p) 0); [discriminate | assumption]).
  split; [exact N | ]. rewrite (pin_project_front D C p N) in E.
  assert (Ek : k = to_pixel C (distort D (normalised p))) by congruence.
  assert (Eb : b = (on_sensor C k && ltb 0 (x2 p))%bool) by congruence. unfold pin_lift. cbn [fst snd].
  split; [ | rewrite Eb; intros Q; apply andb_true_iff in Q; exact (proj1 Q)].
  rewrite Ek, (pin_norm_pixel C _ A B). cbn [rbind]. rewrite H. cbn [rbind]. f_equal.
  unfold along_ray, normalised. cbn [u0 u1]. f_equal; field; exact N.
Qed.
Lemma pin_project_lift D C k p b : (forall y x, undistort D y = Val x -> distort D x = y) ->
  pin_lift D C k = (Val p, b) -> pin_project D C p = (Val k, b).
Proof.
  intros H E. unfold pin_lift in E. destruct (pin_norm C k) as [kp | | | ] eqn:EN; cbn [rbind] in E; try discriminate.
  destruct (undistort D kp) as [y | | | ] eqn:EU; cbn [rbind] in E; try discriminate.
  assert (Ep : p = V3 (u0 y) (u1 y) 1) by congruence. assert (Eb : b = on_sensor C k) by congruence. subst p b.
  rewrite pin_project_front by (cbn [x2]; lra).
  assert (EY : normalised (V3 (u0 y) (u1 y) 1) = y).
  { unfold normalised. cbn [x0 x1 x2]. destruct y as [a b]. cbn [u0 u1]. f_equal; field. }
  rewrite EY, (H _ _ EU), (pixel_pin_norm C k kp EN). cbn [x2]. f_equal.
  replace (ltb 0 1) with true; [apply andb_true_r | symmetry; apply ltb_spec; lra].
Qed.

(** Points of the same ray have the same image. *)
Lemma pin_ray D C p s : s <> 0 ->
  fst (pin_project D C (along_ray s p)) = fst (pin_project D C p) /\
  (0 < s -> snd (pin_project D C (along_ray s p)) = snd (pin_project D C p)).
Proof.
  intros S0. unfold pin_project. cbn [along_ray x0 x1 x2].
  destruct (Req_EM_T (x2 p) 0) as [Z | N].
  - rewrite Z, Rmult_0_r. destruct (Req_EM_T 0 0); [ | lra]. split; reflexivity.
  - destruct (Req_EM_T (s * x2 p) 0) as [Z | M]; [exfalso; apply Rmult_integral in Z; tauto | ].
    replace (s * x0 p * (1 / (s * x2 p))) with (x0 p * (1 / x2 p)) by (field; split; assumption).
    replace (s * x1 p * (1 / (s * x2 p))) with (x1 p * (1 / x2 p)) by (field; split; assumption).
    split; [reflexivity | ]. intros P. cbn [snd]. f_equal. apply bool_eq_iff. rewrite !ltb_spec. split; intros Q; nra.
Qed.
Lemma pin_hray D C ph s : s <> 0 -> q3 ph <> 0 -> pin_hproject D C (along_hray s ph) = pin_hproject D C ph.
Proof.
  intros S0 N. unfold pin_hproject, along_hray, head3, neg3. cbn [q0 q1 q2 q3 x0 x1 x2].
  assert (P : forall a p, 0 < a -> pin_project D C (along_ray a p) = pin_project D C p).
  { intros a p Ha. destruct (pin_ray D C p a ltac:(lra)) as (E1 & E2). specialize (E2 Ha).
    destruct (pin_project D C (along_ray a p)), (pin_project D C p). cbn [fst snd] in *. congruence. }
  destruct (Rlt_dec (q3 ph) 0) as [A | A]; destruct (Rlt_dec (s * q3 ph) 0) as [B | B].
  - assert (0 < s) by nra. rewrite <- (P s (V3 (- q0 ph) (- q1 ph) (- q2 ph)) H). f_equal. unfold along_ray. cbn [x0 x1 x2]. f_equal; ring.
  - assert (s < 0) by nra. rewrite <- (P (- s) (V3 (- q0 ph) (- q1 ph) (- q2 ph)) ltac:(lra)). f_equal. unfold along_ray. cbn [x0 x1 x2]. f_equal; ring.
  - assert (s < 0) by nra. rewrite <- (P (- s) (V3 (q0 ph) (q1 ph) (q2 ph)) ltac:(lra)). f_equal. unfold along_ray. cbn [x0 x1 x2]. f_equal; ring.
  - assert (0 < s) by nra. rewrite <- (P s (V3 (q0 ph) (q1 ph) (q2 ph)) H). f_equal.
Qed.

(** Jacobians with respect to the parameters. *)
Lemma pin_intr_jacobian D C p0 p cols : pin_intrJ D p = Val cols ->
  image_param_jacobian 4 (fun v => fst (pin_project D (pin_set C v) p)) p0 cols.
Proof.
  intros E. unfold pin_intrJ in E. destruct (Req_EM_T (x2 p) 0) as [ | N]; [discriminate | ].
  change (V2 (x0 p * (1 / x2 p)) (x1 p * (1 / x2 p))) with (normalised p) in E.
  set (k := distort D (normalised p)) in *.
  assert (Ec : cols = [V2 (u0 k) 0; V2 0 (u1 k); V2 1 0; V2 0 1]) by congruence. subst cols.
  split; [reflexivity | ]. intros q t dp _ (L & H). rewrite (list4 dp L).
  exists (fun s => to_pixel (pin_set C (q s)) k). split.
  { apply filter_forall. intros s. rewrite (pin_project_front D _ p N). reflexivity. }
  assert (H0 := H 0%nat ltac:(lia)). assert (H1 := H 1%nat ltac:(lia)). assert (H2 := H 2%nat ltac:(lia)). assert (H3 := H 3%nat ltac:(lia)).
  generalize dependent k. intros [a b]. revert H0 H1 H2 H3.
  generalize (nth 0 dp 0), (nth 1 dp 0), (nth 2 dp 0), (nth 3 dp 0). intros d0 d1 d2 d3 H0 H1 H2 H3.
  unfold to_pixel, pin_set, make_intr, combine_cols, v2_add, v2_scale. cbn [fu fv cu cv u0 u1].
  split; cbn [u0 u1].
  - eapply is_derive_eq; [ | exact (is_derive_plus _ _ t _ _ (is_derive_mult _ (fun _ => a) t _ _ H0 (@is_derive_const R_AbsRing R_NormedModule a t) Rmult_comm) H2)].
    req. unfold plus, mult, zero; cbn. ring.
  - eapply is_derive_eq; [ | exact (is_derive_plus _ _ t _ _ (is_derive_mult _ (fun _ => b) t _ _ H1 (@is_derive_const R_AbsRing R_NormedModule b t) Rmult_comm) H3)].
    req. unfold plus, mult, zero; cbn. ring.
Qed.

Lemma combine_scaled C cols dp :
  combine_cols (map (fun c => V2 (fu C * u0 c) (fv C * u1 c)) cols) dp =
  V2 (fu C * u0 (combine_cols cols dp)) (fv C * u1 (combine_cols cols dp)).
Proof.
  revert dp. induction cols as [ | c cs IH]; intros dp; [cbn [map combine_cols u0 u1]; f_equal; ring | ].
  destruct dp as [ | d ds]; [cbn [map combine_cols u0 u1]; f_equal; ring | ].
  cbn [map combine_cols]. rewrite IH. unfold v2_add, v2_scale. cbn [u0 u1]. f_equal; ring.
Qed.
Lemma pin_dist_jacobian n (DF : list R -> distortion) C p0 p cols D : D = DF p0 ->
  (forall y cs, paramJ D y = Val cs -> y = normalised p -> parameter_jacobian n (fun v => distort (DF v) y) p0 cs) ->
  pin_distJ D C p = Val cols ->
  image_param_jacobian n (fun v => fst (pin_project (DF v) C p)) p0 cols.
Proof.
  intros -> HP E. unfold pin_distJ in E. destruct (Req_EM_T (x2 p) 0) as [ | N]; [discriminate | ].
  change (V2 (x0 p * (1 / x2 p)) (x1 p * (1 / x2 p))) with (normalised p) in E.
  destruct (paramJ (DF p0) (normalised p)) as [cs | | | ] eqn:EP; cbn [rbind] in E; try discriminate.
  assert (Ec : cols = map (fun c => V2 (fu C * u0 c) (fv C * u1 c)) cs) by congruence. subst cols.
  destruct (HP _ _ EP eq_refl) as (L & H).
  split; [rewrite map_length; exact L | ]. intros q t dp Eq Hq.
  exists (fun s => to_pixel C (distort (DF (q s)) (normalised p))). split.
  { apply filter_forall. intros s. rewrite (pin_project_front _ C p N). reflexivity. }
  rewrite combine_scaled. apply to_pixel_derive. exact (H q t dp Eq Hq).
Qed.

(** The Jacobian of the ray of a pixel. *)
Lemma pin_pixel_jacobian D C k y K kp : fu C <> 0 -> fv C <> 0 -> in_sync C ->
  pin_norm C k = Val kp -> undistortJ D kp = Val (y, K) -> plane_jacobian (undistort D) kp K ->
  fu C = fv C \/ (n01 K = 0 /\ n10 K = 0) ->
  forall p J, fst (pin_liftJ D C k) = Val (p, J) -> pixel_jacobian (fun q => fst (pin_lift D C q)) k J.
Proof.
  intros A B (S1 & S2) EN EU HK HC p J E c t d Ec (X & Y). subst k.
  unfold pin_liftJ in E. cbn [fst] in E. rewrite EN in E. cbn [rbind] in E. rewrite EU in E. cbn [rbind fst snd] in E.
  match type of E with Val (_, ?m) = Val _ => assert (EJ : J = m) by congruence end. clear E. subst J.
  assert (Nk : forall q, pin_norm C q = Val (V2 ((u0 q - cu C) / fu C) ((u1 q - cv C) / fv C))).
  { intros q. unfold pin_norm. destruct (Req_EM_T (fu C) 0); [contradiction | ]. destruct (Req_EM_T (fv C) 0); [contradiction | reflexivity]. }
  assert (DK : v2_derive (fun s => V2 ((u0 (c s) - cu C) / fu C) ((u1 (c s) - cv C) / fv C)) t (V2 (u0 d / fu C) (u1 d / fv C))).
  { split; cbn [u0 u1].
    - eapply is_derive_eq; [ | exact (is_derive_scal_l _ t _ (/ fu C) (is_derive_minus _ _ t _ _ X (@is_derive_const R_AbsRing R_NormedModule (cu C) t)))].
      req. unfold scal, minus, plus, opp, zero; cbn. unfold mult; cbn. field. exact A.
    - eapply is_derive_eq; [ | exact (is_derive_scal_l _ t _ (/ fv C) (is_derive_minus _ _ t _ _ Y (@is_derive_const R_AbsRing R_NormedModule (cv C) t)))].
      req. unfold scal, minus, plus, opp, zero; cbn. unfold mult; cbn. field. exact B. }
  rewrite Nk in EN. assert (EK : kp = V2 ((u0 (c t) - cu C) / fu C) ((u1 (c t) - cv C) / fv C)) by congruence.
  destruct (HK _ t _ (eq_sym EK) DK) as (g & L & G1 & G2).
  exists (fun s => V3 (u0 (g s)) (u1 (g s)) 1). split.
  { eapply filter_imp; [ | exact L]. cbv beta. intros s Hs. unfold pin_lift. cbn [fst]. rewrite Nk. cbn [rbind]. rewrite Hs. reflexivity. }
  unfold m2_vec in G1, G2. cbn [u0 u1] in G1, G2.
  split; [ | split]; cbn [x0 x1 x2 m32_vec l00 l01 l10 l11 l20 l21].
  - eapply is_derive_eq; [ | exact G1]. req. rewrite S1, ?S2. destruct HC as [F | (Z1 & Z2)]; [rewrite <- F; field; exact A | rewrite Z1; field; split; assumption].
  - eapply is_derive_eq; [ | exact G2]. req. rewrite S2. destruct HC as [F | (Z1 & Z2)]; [rewrite <- F; field; exact A | rewrite Z2; field; split; assumption].
  - eapply is_derive_eq; [ | exact (@is_derive_const R_AbsRing R_NormedModule 1 t)]. req. unfold zero; cbn. ring.
Qed.

(** The mutating calls keep the cached values in step. *)
Lemma pin_sync C ops : in_sync C -> in_sync (fold_left intr_step ops C).
Proof.
  revert C. induction ops as [ | o ops IH]; intros C H; [exact H | ]. cbn [fold_left]. apply IH.
  destruct o; split; reflexivity.
Qed.

(** Resizing. *)
Lemma trunc_int n : trunc (IZR n) = n.
Proof.
  assert (I : forall m, Int_part (IZR m) = m).
  { intros m. unfold Int_part. rewrite <- (tech_up (IZR m) (m + 1)); [lia | rewrite plus_IZR; lra | rewrite plus_IZR; lra]. }
  unfold trunc. destruct (Rle_dec 0 (IZR n)); [apply I | ]. rewrite <- opp_IZR, I. lia.
Qed.
Lemma pin_resize_project D C s p m n : 0 < s -> IZR (ru C) * s = IZR m -> IZR (rv C) * s = IZR n ->
  pin_project D (pin_resize C s) p =
    (rbind (fst (pin_project D C p)) (fun k => Val (v2_scale s k)), snd (pin_project D C p)).
Proof.
  intros P Em En. unfold pin_project. destruct (Req_EM_T (x2 p) 0); [reflexivity | ]. cbn [rbind fst snd].
  set (y := distort D _). assert (EP : to_pixel (pin_resize C s) y = v2_scale s (to_pixel C y)).
  { unfold to_pixel, pin_resize, make_intr, v2_scale. cbn [fu fv cu cv u0 u1]. f_equal; ring. }
  rewrite EP. f_equal. f_equal. apply bool_eq_iff. rewrite !on_sensor_spec. unfold in_image, pin_resize, make_intr, v2_scale.
  cbn [ru rv u0 u1]. rewrite Em, En, !trunc_int, <- Em, <- En. generalize (to_pixel C y). intros k.
  split; intros (A & B); (split; [split; [nra | ] | split; [nra | ]]); try nra.
Qed.
