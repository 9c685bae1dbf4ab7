(** * Proofs about the double sphere projection *)

From Coquelicot Require Import Coquelicot.
From Coq Require Import Reals List Psatz ZArith Bool.
From Verif Require Import KinModel KinSpec KinProofs KinExp KinCurve DistModel DistSpec DistProofs DistUndist PinModel CamSpec PinProofs OmniModel OmniSpec OmniProofs EucmModel EucmSpec EucmProofs DsModel DsSpec.
Import ListNotations.
Local Open Scope R_scope.

Lemma d2_en M p : ds_d2 M p = ellipsoid_norm 1 (shifted (sx M) p).
Proof. unfold ds_d2, ellipsoid_norm, shifted. cbn [x0 x1 x2]. rewrite Rmult_1_l. reflexivity. Qed.
Lemma d1_sq p : ds_d1 p * ds_d1 p = x0 p * x0 p + x1 p * x1 p + x2 p * x2 p.
Proof. apply sqrt_sqrt. nra. Qed.
Lemma d1_pos p : 0 <= ds_d1 p.
Proof. apply sqrt_pos. Qed.
Lemma d2_sq M p : ds_d2 M p * ds_d2 M p = x0 p * x0 p + x1 p * x1 p + ds_k M p * ds_k M p.
Proof. apply sqrt_sqrt. nra. Qed.

(** The weight. *)
Lemma w_range a : 0 <= a <= 1 -> 0 <= ds_w a <= 1.
Proof.
  intros A. unfold ds_w. destruct (Rle_dec a (1 / 2)) as [L | L].
  - split; [apply Rle_mult_inv_pos; lra | ]. apply (Rle_div_l a 1 (1 - a)); lra.
  - split; [apply Rle_mult_inv_pos; lra | ]. apply (Rle_div_l (1 - a) 1 a); lra.
Qed.
Lemma w_abs a : ds_w a = (1 - Rabs (1 - 2 * a)) / (1 + Rabs (1 - 2 * a)).
Proof.
  unfold ds_w. destruct (Rle_dec a (1 / 2)) as [L | L].
  - rewrite Rabs_right by lra. field. split; lra.
  - rewrite Rabs_left by lra. field. split; lra.
Qed.
Lemma w_bound a : -1 < ds_w a <= 1.
Proof.
  rewrite w_abs. assert (P := Rabs_pos (1 - 2 * a)). set (b := Rabs (1 - 2 * a)) in *. split.
  - apply (Rlt_div_r (-1) (1 - b) (1 + b)); lra.
  - apply (Rle_div_l (1 - b) 1 (1 + b)); lra.
Qed.
Lemma fov_radicand a x : -1 < x -> 0 < 2 * ds_w a * x + x * x + 1.
Proof. intros X. destruct (w_bound a) as (A & B). set (w := ds_w a) in *. destruct (Rle_lt_dec 0 x); [destruct (Req_dec x 0); [subst x; lra | ]; assert (-1 * x < w * x) by (apply Rmult_lt_compat_r; lra); assert (Q := Rle_0_sqr (x - 1)); unfold Rsqr in Q; lra | assert (1 * - x >= w * - x) by (apply Rle_ge, Rmult_le_compat_r; lra); assert (Q : 0 < (x + 1) * (x + 1)) by (apply Rmult_lt_0_compat; lra); lra]. Qed.

(** What the test of the field of view promises. *)
Lemma fov_sound w x z d : 0 <= w <= 1 -> -1 < x <= 1 -> 0 <= w + x -> 0 < d -> z <= d ->
  0 < 2 * w * x + x * x + 1 -> - ((w + x) / sqrt (2 * w * x + x * x + 1) * d) < z -> x * d + z <= 0 ->
  (x * d + z) * (x * d + z) < w * w * (d * d + 2 * x * z * d + x * x * d * d).
Proof.
  intros W X WX D ZD CP H K. set (c := sqrt (2 * w * x + x * x + 1)) in *.
  assert (C0 : 0 < c) by (apply sqrt_lt_R0; exact CP). assert (C2 : c * c = 2 * w * x + x * x + 1) by (apply sqrt_sqrt; lra).
  set (a := (w + x) / c) in *. assert (CA : c * a = w + x) by (unfold a; field; lra). clearbody a.
  (* scale to d = 1 *)
  set (q := z / d). assert (EZ : z = q * d) by (unfold q; field; lra). clearbody q. subst z.
  assert (Hq : - a < q). { apply (Rmult_lt_reg_r d); [exact D | lra]. }
  assert (Kq : x + q <= 0). { apply (Rmult_le_reg_r d); [exact D | lra]. }
  assert (G : 0 < w * w * (1 + 2 * x * q + x * x) - (x + q) * (x + q)).
  { assert (XC : x * (c - 1) <= w).
    { assert (x <= a) by lra. assert (c * x <= c * a) by (apply Rmult_le_compat_l; lra). lra. }
    assert (HA : c * c * (w * w * (1 + x * x - 2 * x * a) - (x - a) * (x - a)) = (1 - w * w) * (c - 1) * (x * (2 * w - x * (c - 1)))).
    { replace (c * c * (w * w * (1 + x * x - 2 * x * a) - (x - a) * (x - a)))
        with (w * w * (c * c * (1 + x * x) - 2 * x * c * (c * a)) - (x * c - c * a) * (x * c - c * a)) by ring.
      rewrite CA. ring [C2]. }
    assert (GA : 0 <= w * w * (1 + x * x - 2 * x * a) - (x - a) * (x - a)).
    { apply (Rmult_le_reg_l (c * c)); [nra | ]. rewrite Rmult_0_r, HA.
      assert (0 <= 1 - w * w) by nra. assert (WP : 0 <= 2 * w - x * (c - 1)) by lra.
      rewrite Rmult_assoc. apply Rmult_le_pos; [assumption | ].
      destruct (Rle_lt_dec 0 x) as [XP | XN].
      - assert (0 <= c - 1) by nra. apply Rmult_le_pos; [assumption | ]. apply Rmult_le_pos; assumption.
      - assert (c - 1 <= 0). { assert (0 <= 2 * w + x) by lra. destruct (Rle_lt_dec c 1); [lra | ]. assert (c * c > 1) by nra. nra. }
        replace ((c - 1) * (x * (2 * w - x * (c - 1)))) with ((1 - c) * (- x * (2 * w - x * (c - 1)))) by ring.
        apply Rmult_le_pos; [lra | ]. apply Rmult_le_pos; lra. }
    assert (AX : x < a) by lra.
    (* concave between -a and -x *)
    set (t := (q + a) / (a - x)). assert (ET : q = - a + t * (a - x)) by (unfold t; field; lra).
    assert (T0 : 0 < t) by (apply Rdiv_lt_0_compat; lra). assert (T1 : t <= 1) by (apply (Rle_div_l (q + a) 1 (a - x)); lra).
    assert (EG : w * w * (1 + 2 * x * q + x * x) - (x + q) * (x + q) =
                 (1 - t) * (w * w * (1 + x * x - 2 * x * a) - (x - a) * (x - a)) + t * (w * w * (1 - x * x)) + t * (1 - t) * ((a - x) * (a - x))).
    { clear - ET. clearbody t. subst q. ring. }
    rewrite EG. clearbody t. destruct (Rlt_le_dec t 1) as [TL | TG].
    - assert (0 <= (1 - t) * (w * w * (1 + x * x - 2 * x * a) - (x - a) * (x - a))) by (apply Rmult_le_pos; lra).
      assert (0 <= t * (w * w * (1 - x * x))) by (apply Rmult_le_pos; [lra | ]; apply Rmult_le_pos; nra).
      assert (0 < t * (1 - t) * ((a - x) * (a - x))) by (apply Rmult_lt_0_compat; [apply Rmult_lt_0_compat; lra | nra]). lra.
    - assert (t = 1) by lra. subst t. replace ((1 - 1) * (w * w * (1 + x * x - 2 * x * a) - (x - a) * (x - a)) + 1 * (w * w * (1 - x * x)) + 1 * (1 - 1) * ((a - x) * (a - x))) with (w * w * (1 - x * x)) by ring.
      assert (W0 : 0 < w).
      { destruct W as ([ | Z] & _); [assumption | exfalso]. subst w. assert (0 <= x) by lra. assert (1 <= c) by nra. nra. }
      assert (X1 : x < 1).
      { destruct X as (_ & [ | Z]); [assumption | exfalso]. subst x. assert (a > 1) by lra. assert (CC : c * c = 2 * w + 2) by lra. assert (c * a > c) by nra. nra. }
      apply Rmult_lt_0_compat; nra. }
  assert (0 < d * d) by nra.
  assert (0 < d * d * (w * w * (1 + 2 * x * q + x * x) - (x + q) * (x + q))) by (apply Rmult_lt_0_compat; assumption). nra.
Qed.

(** Accepted points are in the region where the model is one to one. *)
Lemma ds_refused_spec M z d : ds_sync M -> -1 < sx M ->
  ds_refused M z d = true <-> z <= - ((ds_w (sa M) + sx M) / sqrt (2 * ds_w (sa M) * sx M + sx M * sx M + 1) * d).
Proof.
  intros (_ & _ & F) X. unfold ds_refused. rewrite F. assert (P := fov_radicand (sa M) (sx M) X).
  destruct (Rle_dec _ 0); [lra | apply leb_spec].
Qed.
Lemma ds_accept_valid M p : ds_sync M -> 0 <= sa M <= 1 -> -1 < sx M <= 1 -> 0 <= ds_w (sa M) + sx M ->
  ds_refused M (x2 p) (ds_d1 p) = false -> ds_valid (sx M) (sa M) p /\ 0 < ds_d1 p.
Proof.
  intros S A X WX E. assert (W := w_range _ A). assert (CP := fov_radicand (sa M) (sx M) (proj1 X)).
  assert (NL : - ((ds_w (sa M) + sx M) / sqrt (2 * ds_w (sa M) * sx M + sx M * sx M + 1) * ds_d1 p) < x2 p).
  { apply Rnot_le_lt. intros L. apply (ds_refused_spec M _ _ S (proj1 X)) in L. congruence. }
  assert (Q := d1_sq p). assert (P := d1_pos p).
  assert (D : 0 < ds_d1 p).
  { destruct P as [P | P]; [exact P | exfalso]. rewrite <- P in NL, Q. rewrite Rmult_0_r in NL. nra. }
  assert (ZD : x2 p <= ds_d1 p) by nra.
  split; [ | exact D]. unfold ds_valid, eucm_valid. set (q := shifted (sx M) p).
  destruct (en_z 1 q ltac:(lra)) as (Z1 & Z2). assert (N2 := en2 1 q ltac:(lra)). assert (NP := en_pos 1 q).
  assert (EK : x2 q = sx M * ds_d1 p + x2 p) by reflexivity.
  assert (T := fov_test (sa M) (ellipsoid_norm 1 q) (x2 q) Z1 Z2). fold (ds_w (sa M)) in T.
  destruct (eucm_valid_dec (sa M) 1 q) as [V | V]; [exact V | exfalso]. apply (proj2 T) in V.
  set (n := ellipsoid_norm 1 q) in *. assert (0 <= ds_w (sa M) * n) by (apply Rmult_le_pos; lra).
  assert (K : sx M * ds_d1 p + x2 p <= 0) by lra.
  assert (F := fov_sound (ds_w (sa M)) (sx M) (x2 p) (ds_d1 p) W X WX D ZD CP NL K).
  rewrite EK in *. assert (NN : n * n = ds_d1 p * ds_d1 p + 2 * sx M * x2 p * ds_d1 p + sx M * sx M * ds_d1 p * ds_d1 p).
  { rewrite N2. change (x0 q) with (x0 p). change (x1 q) with (x1 p). lra. }
  rewrite <- NN in F. nra.
Qed.

Definition ds_point (M : ds) (p : v3) : v2 := V2 (x0 p * (1 / ds_norm M p)) (x1 p * (1 / ds_norm M p)).
Lemma ds_project_val M p k b : ds_project M p = (Val k, b) ->
  ds_refused M (x2 p) (ds_d1 p) = false /\ ds_norm M p <> 0 /\ k = to_pixel (si M) (ds_point M p) /\ b = on_sensor (si M) k.
Proof.
  unfold ds_project. destruct (ds_refused _ _ _); [discriminate | ]. destruct (Req_EM_T _ 0) as [ | N]; [discriminate | ]. intros E.
  assert (Ek : k = to_pixel (si M) (ds_point M p)) by (unfold ds_point; congruence).
  split; [reflexivity | ]. split; [exact N | ]. split; [exact Ek | ]. subst k. unfold ds_point. congruence.
Qed.
Lemma ds_project_ok M p : ds_refused M (x2 p) (ds_d1 p) = false -> ds_norm M p <> 0 ->
  ds_project M p = (Val (to_pixel (si M) (ds_point M p)), on_sensor (si M) (to_pixel (si M) (ds_point M p))).
Proof. intros E N. unfold ds_project. rewrite E. destruct (Req_EM_T _ 0); [contradiction | reflexivity]. Qed.
Lemma ds_overloads M p : fst (fst (ds_projectJ M p)) = fst (ds_project M p) /\ snd (ds_projectJ M p) = snd (ds_project M p).
Proof.
  unfold ds_projectJ, ds_project. cbv zeta. destruct (ds_refused _ _ _); [split; reflexivity | ]. destruct (Req_EM_T _ 0); [split; reflexivity | ].
  destruct (Req_EM_T _ 0); [split; reflexivity | ]. destruct (Req_EM_T _ 0); split; reflexivity.
Qed.

(** Rays. *)
Lemma d1_ray s p : 0 <= s -> ds_d1 (along_ray s p) = s * ds_d1 p.
Proof.
  intros P. unfold ds_d1, along_ray. cbn [x0 x1 x2]. replace (s * x0 p * (s * x0 p) + s * x1 p * (s * x1 p) + s * x2 p * (s * x2 p)) with ((s * s) * (x0 p * x0 p + x1 p * x1 p + x2 p * x2 p)) by ring.
  rewrite sqrt_mult by nra. rewrite sqrt_square by exact P. reflexivity.
Qed.
Lemma k_ray M s p : 0 <= s -> ds_k M (along_ray s p) = s * ds_k M p.
Proof. intros P. unfold ds_k. rewrite d1_ray by exact P. unfold along_ray. cbn [x2]. ring. Qed.
Lemma d2_ray M s p : 0 <= s -> ds_d2 M (along_ray s p) = s * ds_d2 M p.
Proof.
  intros P. unfold ds_d2. rewrite (k_ray M s p P). unfold along_ray. cbn [x0 x1]. replace (s * x0 p * (s * x0 p) + s * x1 p * (s * x1 p) + s * ds_k M p * (s * ds_k M p)) with ((s * s) * (x0 p * x0 p + x1 p * x1 p + ds_k M p * ds_k M p)) by ring.
  rewrite sqrt_mult by nra. rewrite sqrt_square by exact P. reflexivity.
Qed.
Lemma ds_ray M p s : 0 < s -> ds_project M (along_ray s p) = ds_project M p.
Proof.
  intros P. assert (P' := Rlt_le _ _ P). unfold ds_project.
  assert (ER : ds_refused M (x2 (along_ray s p)) (ds_d1 (along_ray s p)) = ds_refused M (x2 p) (ds_d1 p)).
  { unfold ds_refused. destruct (s_fov M) as [f | | | ]; try reflexivity. rewrite (d1_ray s p P'). unfold along_ray. cbn [x2]. apply bool_eq_iff. rewrite !leb_spec.
    split; intros L; [apply (Rmult_le_reg_l s); lra | ]. assert (s * x2 p <= s * - (f * ds_d1 p)) by (apply Rmult_le_compat_l; lra). lra. }
  rewrite ER. clear ER. destruct (ds_refused _ _ _); [reflexivity | ].
  assert (EN : ds_norm M (along_ray s p) = s * ds_norm M p) by (unfold ds_norm; rewrite (d2_ray M s p P'), (k_ray M s p P'); ring).
  rewrite EN. destruct (Req_EM_T (ds_norm M p) 0) as [Z | N].
  - destruct (Req_EM_T _ 0) as [ | N]; [reflexivity | exfalso; apply N; rewrite Z; ring].
  - destruct (Req_EM_T _ 0) as [Z | _]; [exfalso; nra | ]. cbv zeta. unfold along_ray. cbn [x0 x1].
    replace (s * x0 p * (1 / (s * ds_norm M p))) with (x0 p * (1 / ds_norm M p)) by (field; split; [exact N | lra]).
    replace (s * x1 p * (1 / (s * ds_norm M p))) with (x1 p * (1 / ds_norm M p)) by (field; split; [exact N | lra]). reflexivity.
Qed.

(** The Jacobian of the projection. *)
Lemma neq0_pos q : 0 <= q -> sqrt q <> 0 -> 0 < q.
Proof. intros P N. destruct P as [P | P]; [exact P | exfalso; apply N; rewrite <- P; apply sqrt_0]. Qed.
Lemma d1_rad p : ds_d1 p <> 0 -> 0 < x0 p * x0 p + x1 p * x1 p + x2 p * x2 p.
Proof. intros N. apply neq0_pos; [nra | exact N]. Qed.
Lemma d2_rad M p : ds_d2 M p <> 0 -> 0 < x0 p * x0 p + x1 p * x1 p + ds_k M p * ds_k M p.
Proof. intros N. apply neq0_pos; [nra | exact N]. Qed.
Lemma refused_open f z (d : R -> R) (zz : R -> R) t dz dd : f = Val z \/ (forall x, f <> Val x) -> is_derive zz t dz -> is_derive d t dd ->
  match f with Val f => leb (zz t) (- (f * d t)) | _ => false end = false ->
  locally t (fun s => match f with Val f => leb (zz s) (- (f * d s)) | _ => false end = false).
Proof.
  intros _ Z D E. destruct f as [f | | | ]; try (apply filter_forall; intros; reflexivity).
  assert (L : 0 < zz t + f * d t). { apply Rnot_le_lt. intros L. assert (leb (zz t) (- (f * d t)) = true) by (apply leb_spec; lra). congruence. }
  assert (C : is_derive (fun s => zz s + f * d s) t (dz + f * dd)) by exact (is_derive_plus _ _ t _ _ Z (is_derive_scal _ t f _ D)).
  eapply filter_imp; [ | exact (locally_gt _ t _ (derive_continuous _ _ _ C) L)]. cbv beta. intros s Hs.
  apply not_true_is_false. rewrite leb_spec. lra.
Qed.
Lemma en_derive1 (x y z : R -> R) (t dx dy dz : R) :
  is_derive x t dx -> is_derive y t dy -> is_derive z t dz -> 0 < x t * x t + y t * y t + z t * z t ->
  is_derive (fun s => sqrt (x s * x s + y s * y s + z s * z s)) t
    ((x t * dx + y t * dy + z t * dz) / sqrt (x t * x t + y t * y t + z t * z t)).
Proof.
  intros X Y Z P. derive_ex X. derive_ex Y. derive_ex Z. auto_derive; [tauto | ].
  derive_sub X. derive_sub Y. derive_sub Z. req.
  assert (0 < sqrt (x t * x t + y t * y t + z t * z t)) by (apply sqrt_lt_R0; exact P). field. lra.
Qed.
Lemma k_derive (x d z : R -> R) t dx dd dz : is_derive x t dx -> is_derive d t dd -> is_derive z t dz ->
  is_derive (fun s => x s * d s + z s) t (dx * d t + x t * dd + dz).
Proof. intros X D Z. derive_ex X. derive_ex D. derive_ex Z. auto_derive; [tauto | ]. derive_sub X. derive_sub D. derive_sub Z. req. ring. Qed.

Lemma ds_point_jacobian M p k J b : ds_projectJ M p = ((Val k, Val J), b) -> point_jacobian (fun q => fst (ds_project M q)) p J.
Proof.
  intros E c t d Ec (X & Y & Z). subst p. unfold ds_projectJ in E. cbv zeta in E.
  destruct (ds_refused M (x2 (c t)) (ds_d1 (c t))) eqn:ER; [discriminate | ]. destruct (Req_EM_T (ds_norm M (c t)) 0) as [ | N]; [discriminate | ].
  destruct (Req_EM_T (ds_d1 (c t)) 0) as [ | N1]; [discriminate | ]. destruct (Req_EM_T (ds_d2 M (c t)) 0) as [ | N2]; [discriminate | ].
  match type of E with ((_, Val ?m), _) = _ => assert (EJ : J = m) by congruence end. clear E. subst J.
  assert (D1 := en_derive1 _ _ _ t _ _ _ X Y Z (d1_rad _ N1)). cbv beta in D1.
  match type of D1 with is_derive _ t (?e / _) => change (is_derive (fun s => ds_d1 (c s)) t (e / ds_d1 (c t))) in D1 end.
  assert (KD := k_derive _ _ _ t _ _ _ (@is_derive_const R_AbsRing R_NormedModule (sx M) t) D1 Z). cbv beta in KD. change (@zero R_NormedModule) with 0 in KD.
  match type of KD with is_derive _ t ?e => change (is_derive (fun s => ds_k M (c s)) t e) in KD end.
  assert (D2 := en_derive1 _ _ _ t _ _ _ X Y KD (d2_rad M _ N2)). cbv beta in D2.
  match type of D2 with is_derive _ t (?e / _) => change (is_derive (fun s => ds_d2 M (c s)) t (e / ds_d2 M (c t))) in D2 end.
  assert (BD := blend_derive _ _ _ t _ _ _ (@is_derive_const R_AbsRing R_NormedModule (sa M) t) D2 KD). cbv beta in BD. change (@zero R_NormedModule) with 0 in BD.
  match type of BD with is_derive _ t ?e => change (is_derive (fun s => ds_norm M (c s)) t e) in BD end.
  exists (fun s => to_pixel (si M) (ds_point M (c s))). split.
  { assert (LR : locally t (fun s => ds_refused M (x2 (c s)) (ds_d1 (c s)) = false)).
    { unfold ds_refused in *. destruct (s_fov M) as [f | | | ] eqn:EF.
      - exact (refused_open (Val f) f _ _ t _ _ (or_introl eq_refl) Z D1 ER).
      - apply filter_forall; intros; reflexivity.
      - apply filter_forall; intros; reflexivity.
      - apply filter_forall; intros; reflexivity. }
    eapply filter_imp; [ | exact (filter_and _ _ LR (continuous_neq0 _ t (derive_continuous _ _ _ BD) N))].
    cbv beta. intros s (Hr & Hn). rewrite (ds_project_ok M (c s) Hr Hn). reflexivity. }
  assert (PD := ratio_derive _ _ _ t _ _ _ X Y BD N). cbv beta in PD.
  eapply v2_derive_eq; [ | exact (to_pixel_derive (si M) _ t _ PD)].
  unfold m23_vec. cbn [u0 u1 j00 j01 j02 j10 j11 j12].
  set (n := ds_norm M (c t)) in *. set (e1 := ds_d1 (c t)) in *. set (e2 := ds_d2 M (c t)) in *. set (kk := ds_k M (c t)) in *.
  f_equal; field; repeat split; assumption.
Qed.

(** Lifting. *)
Lemma ds_liftable_root M r : ds_sync M -> 0 <= 1 - (2 * sa M - 1) * r -> ds_liftable2 M r = true.
Proof.
  intros (_ & O & _) H. unfold ds_liftable2. apply orb_true_iff. rewrite !leb_spec. destruct (Rle_lt_dec (sa M) (1 / 2)) as [X | X]; [left; exact X | right].
  rewrite O. destruct (Rlt_dec _ _); [ | lra]. apply (Rle_div_r r 1 (2 * sa M - 1)); lra.
Qed.
Lemma ds_lift_project M p k b : ds_sync M -> 0 <= sa M <= 1 -> -1 < sx M <= 1 -> 0 <= ds_w (sa M) + sx M -> fu (si M) <> 0 -> fv (si M) <> 0 ->
  ds_project M p = (Val k, b) -> ds_lift M k = (Val (along_ray (1 / v3_norm p) p), true).
Proof.
  intros S A X WX F G E. destruct (ds_project_val M p k b E) as (ER & N & Ek & _). subst k.
  destruct (ds_accept_valid M p S A X WX ER) as (V & D).
  assert (EN := norm_pixel_pixel (si M) (ds_point M p) (proj1 S) F G).
  unfold ds_lift. rewrite EN. pose proof V as (V1 & V2). rewrite <- d2_en in V1, V2. change (x2 (shifted (sx M) p)) with (ds_k M p) in V1, V2.
  assert (Q2 := d2_sq M p). assert (Q2' : ds_d2 M p * ds_d2 M p = 1 * (x0 p * x0 p + x1 p * x1 p) + ds_k M p * ds_k M p) by lra.
  destruct (lift_root (sa M) 1 (x0 p) (x1 p) (ds_k M p) _ Q2' V1 V2) as (E1 & E2 & E3 & E4). cbv zeta in E1, E2, E3, E4.
  unfold ds_point. cbn [u0 u1]. cbv zeta. set (n := ds_d2 M p) in *. fold (ds_norm M p) in V1. change (sa M * n + (1 - sa M) * ds_k M p) with (ds_norm M p) in *. set (NN := ds_norm M p) in *.
  set (r2 := x0 p * (1 / NN) * (x0 p * (1 / NN)) + x1 p * (1 / NN) * (x1 p * (1 / NN))) in *.
  replace (1 - (sa M - (1 - sa M)) * 1 * r2) with (1 - (2 * sa M - 1) * r2) in * by ring.
  assert (R0 : 0 <= 1 - (2 * sa M - 1) * r2) by (rewrite E1; apply Rle_0_sqr).
  rewrite (ds_liftable_root M r2 S R0). destruct (Rlt_dec _ 0); [lra | ]. specialize (E3 A). specialize (E4 A).
  replace (sa M * sqrt (1 - (2 * sa M - 1) * r2) + 1 - sa M) with (sa M * sqrt (1 - (2 * sa M - 1) * r2) + (1 - sa M)) by ring.
  replace (1 - sa M * sa M * r2) with (1 - sa M * sa M * 1 * r2) by ring.
  destruct (Req_EM_T _ 0); [lra | ]. rewrite E4. set (kk := ds_k M p) in *. set (d := ds_d1 p) in *.
  assert (Q1 := d1_sq p). fold d in Q1. assert (EK : kk = sx M * d + x2 p) by reflexivity.
  assert (PI : 0 < 1 / NN) by (apply Rdiv_lt_0_compat; lra).
  assert (ES : kk / NN * (kk / NN) + (1 - sx M * sx M) * r2 = (d + sx M * x2 p) / NN * ((d + sx M * x2 p) / NN)).
  { transitivity ((kk * kk + (1 - sx M * sx M) * (x0 p * x0 p + x1 p * x1 p)) / (NN * NN)); [unfold r2; field; lra | ].
    replace (x0 p * x0 p + x1 p * x1 p) with (d * d - x2 p * x2 p) by lra. rewrite EK. field. lra. }
  assert (DS : 0 <= d + sx M * x2 p).
  { assert (- d <= x2 p <= d) by nra. destruct (Rle_lt_dec 0 (sx M)); [assert (sx M * - d <= sx M * x2 p) by (apply Rmult_le_compat_l; lra); assert (sx M * d <= 1 * d) by (apply Rmult_le_compat_r; lra); lra | ].
    assert (- sx M * x2 p <= - sx M * d) by (apply Rmult_le_compat_l; lra). assert (- sx M * d <= 1 * d) by (apply Rmult_le_compat_r; lra). lra. }
  assert (DP : 0 <= (d + sx M * x2 p) / NN) by (apply Rle_mult_inv_pos; lra).
  rewrite ES, sqrt_square by exact DP.
  destruct (Rlt_dec _ 0) as [Z | _]; [exfalso; assert (W := Rle_0_sqr ((d + sx M * x2 p) / NN)); unfold Rsqr in W; lra | ].
  assert (NP : 0 < n). { unfold n. rewrite d2_en. exact (eucm_valid_pos (sa M) 1 _ ltac:(lra) V). }
  assert (EN2 : n * n = d * (d + 2 * sx M * x2 p + sx M * sx M * d)) by (rewrite Q2; rewrite EK; lra).
  assert (ER2 : kk / NN * (kk / NN) + r2 = n * n / (NN * NN)) by (rewrite Q2; unfold r2; field; lra).
  rewrite ER2. assert (0 < n * n / (NN * NN)) by (apply Rdiv_lt_0_compat; nra).
  destruct (Req_EM_T _ 0); [lra | ].
  assert (EKAPPA : (kk / NN * sx M + (d + sx M * x2 p) / NN) / (n * n / (NN * NN)) = NN / d).
  { transitivity (NN * (kk * sx M + (d + sx M * x2 p)) / (n * n)); [field; split; lra | ].
    rewrite EN2, EK. assert (NZ : d + 2 * sx M * x2 p + sx M * sx M * d <> 0) by (intros Z; rewrite Z in EN2; nra). field. first [split; [exact NZ | lra] | split; [lra | exact NZ]]. }
  rewrite EKAPPA. f_equal. f_equal. unfold along_ray. change (v3_norm p) with d. f_equal; [field; split; lra | field; split; lra | ].
  rewrite EK. field. split; lra.
Qed.

(** ... and back, where the lifted point is not refused. *)
Lemma ds_project_lift M k p b : ds_sync M -> 0 <= sa M <= 1 -> -1 < sx M < 1 -> ds_lift M k = (Val p, b) ->
  (1 / 2 < sa M -> forall y, norm_pixel (si M) k = Val y -> u0 y * u0 y + u1 y * u1 y <> 1 / (2 * sa M - 1)) ->
  v3_norm p = 1 /\ b = true /\ ds_valid (sx M) (sa M) p /\
  (ds_refused M (x2 p) 1 = false -> ds_project M p = (Val k, on_sensor (si M) k)).
Proof.
  intros S A X E NB. unfold ds_lift in E. destruct (norm_pixel (si M) k) as [y | | | ] eqn:EN; try discriminate. cbv zeta in E.
  destruct (ds_liftable2 M (u0 y * u0 y + u1 y * u1 y)) eqn:L; [ | discriminate].
  destruct (Rlt_dec _ 0) as [ | NN]; [discriminate | ]. set (r2 := u0 y * u0 y + u1 y * u1 y) in *. assert (R0 : 0 <= r2) by (unfold r2; nra).
  assert (P : 0 < 1 - (2 * sa M - 1) * r2).
  { apply Rnot_lt_le in NN. destruct NN as [ | Z]; [assumption | exfalso]. destruct (Rle_lt_dec (sa M) (1 / 2)) as [Y | Y].
    - assert (0 <= (1 - 2 * sa M) * r2) by (apply Rmult_le_pos; lra). lra.
    - apply (NB Y y eq_refl). fold r2. apply (Rmult_eq_reg_r (2 * sa M - 1)); [ | lra]. unfold Rdiv. rewrite Rmult_1_l, Rinv_l by lra. lra. }
  assert (EP : 1 - (sa M - (1 - sa M)) * 1 * r2 = 1 - (2 * sa M - 1) * r2) by ring.
  destruct (eucm_back (sa M) 1 y A ltac:(lra)) as (T & ONE & V & PK); [fold r2; lra | ]. cbv zeta in T, ONE, V, PK. fold r2 in T, ONE, V, PK. rewrite EP in T, ONE, V, PK.
  replace (sa M * sqrt (1 - (2 * sa M - 1) * r2) + 1 - sa M) with (sa M * sqrt (1 - (2 * sa M - 1) * r2) + (1 - sa M)) in E by ring.
  replace (1 - sa M * sa M * 1 * r2) with (1 - sa M * sa M * r2) in * by ring.
  destruct (Req_EM_T _ 0); [discriminate | ]. set (mz := (1 - sa M * sa M * r2) / _) in *.
  destruct (Rlt_dec _ 0); [discriminate | ]. destruct (Req_EM_T _ 0); [discriminate | ].
  match type of E with (Val ?q, _) = _ => assert (Ep : p = q) by congruence end. assert (Eb : b = true) by congruence. clear E.
  set (s := sqrt (mz * mz + (1 - sx M * sx M) * r2)) in *. assert (S2 : s * s = mz * mz + (1 - sx M * sx M) * r2) by (apply sqrt_sqrt; lra).
  assert (S0 : 0 <= s) by apply sqrt_pos. clearbody s.
  set (ka := (mz * sx M + s) / (mz * mz + r2)) in *.
  assert (KP : 0 < ka).
  { apply Rdiv_lt_0_compat; [ | lra]. assert (0 < (1 - sx M * sx M) * (mz * mz + r2)) by (apply Rmult_lt_0_compat; nra).
    destruct (Rle_lt_dec (mz * sx M + s) 0); [exfalso | assumption]. assert (s <= - (mz * sx M)) by lra. nra. }
  assert (KQ : ka * ka * (mz * mz + r2) - 2 * ka * mz * sx M + sx M * sx M = 1).
  { unfold ka. field_simplify_eq; [ | lra]. ring [S2]. }
  clearbody ka. assert (N1 : v3_norm p = 1).
  { unfold v3_norm, v3_dot. rewrite Ep. cbn [x0 x1 x2]. rewrite <- sqrt_1. f_equal. rewrite <- KQ. unfold r2. ring. }
  assert (D1 : ds_d1 p = 1) by exact N1.
  assert (EK : ds_k M p = ka * mz) by (unfold ds_k; rewrite D1, Ep; cbn [x2]; ring).
  assert (ESH : shifted (sx M) p = along_ray ka (V3 (u0 y) (u1 y) mz)).
  { unfold shifted. rewrite N1. rewrite Ep. unfold along_ray. cbn [x0 x1 x2]. f_equal. ring. }
  assert (ED2 : ds_d2 M p = ka * ellipsoid_norm 1 (V3 (u0 y) (u1 y) mz)) by (rewrite d2_en, ESH; apply en_ray; lra).
  assert (ENM : ds_norm M p = ka).
  { unfold ds_norm. rewrite ED2, EK. transitivity (ka * (sa M * ellipsoid_norm 1 (V3 (u0 y) (u1 y) mz) + (1 - sa M) * mz)); [ring | rewrite ONE; ring]. }
  split; [exact N1 | ]. split; [exact Eb | ]. split.
  - unfold ds_valid. rewrite ESH. destruct V as (V1 & V2). unfold eucm_valid. rewrite en_ray by lra. cbn [along_ray x2] in *.
    set (e := ellipsoid_norm 1 (V3 (u0 y) (u1 y) mz)) in *.
    replace (sa M * (ka * e) + (1 - sa M) * (ka * mz)) with (ka * (sa M * e + (1 - sa M) * mz)) by ring.
    replace ((1 - sa M) * (ka * e) + sa M * (ka * mz)) with (ka * ((1 - sa M) * e + sa M * mz)) by ring.
    split; apply Rmult_lt_0_compat; assumption.
  - intros ER. assert (NZ : ds_norm M p <> 0) by lra. rewrite <- D1 in ER. rewrite (ds_project_ok M p ER NZ).
    assert (EPT : ds_point M p = y).
    { unfold ds_point. rewrite ENM, Ep. cbn [x0 x1]. destruct y as [a c]. cbn [u0 u1]. f_equal; field; lra. }
    rewrite EPT, (pixel_norm_pixel (si M) k y (proj1 S) EN). reflexivity.
Qed.

(** The Jacobian of the lifting. *)
Lemma mz_derive al (r : R -> R) t dr : is_derive r t dr ->
  0 < 1 - (2 * al - 1) * r t -> al * sqrt (1 - (2 * al - 1) * r t) + 1 - al <> 0 ->
  let S := sqrt (1 - (2 * al - 1) * r t) in
  let T := al * S + 1 - al in
  is_derive (fun s => (1 - al * al * r s) * (1 / (al * sqrt (1 - (2 * al - 1) * r s) + 1 - al))) t
    (((1 / 2 * al - al * al) * (r t * (al * al) - 1) * (1 / S) * (1 / T * (1 / T)) - al * al * (1 / T)) * dr).
Proof.
  intros H P N. cbv zeta. derive_ex H. auto_derive; [tauto | ]. derive_sub H. req.
  assert (0 < sqrt (1 - (2 * al - 1) * r t)) by (apply sqrt_lt_R0; exact P).
  change (1 + - ((2 * al - 1) * r t)) with (1 - (2 * al - 1) * r t) in *. change (al * sqrt (1 - (2 * al - 1) * r t) + 1 + - al) with (al * sqrt (1 - (2 * al - 1) * r t) + 1 - al).
  set (q := sqrt (1 - (2 * al - 1) * r t)) in *. field. first [split; [exact N | lra] | split; [lra | exact N]].
Qed.
Lemma kappa_derive x (r m : R -> R) t dr dm : is_derive r t dr -> is_derive m t (dm * dr) ->
  0 < m t * m t + (1 - x * x) * r t -> m t * m t + r t <> 0 ->
  let S := sqrt (m t * m t + (1 - x * x) * r t) in let n := 1 / (m t * m t + r t) in
  is_derive (fun s => (m s * x + sqrt (m s * m s + (1 - x * x) * r s)) * (1 / (m s * m s + r s))) t
    (((x * dm + 1 / 2 * (1 / S) * (2 * m t * dm + 1 - x * x)) * n - (m t * x + S) * (2 * m t * dm + 1) * (n * n)) * dr).
Proof.
  intros H K P N. cbv zeta. derive_ex H. derive_ex K. auto_derive; [tauto | ]. derive_sub H. derive_sub K. req.
  assert (0 < sqrt (m t * m t + (1 - x * x) * r t)) by (apply sqrt_lt_R0; exact P).
  change (1 + - (x * x)) with (1 - x * x) in *.
  set (q := sqrt (m t * m t + (1 - x * x) * r t)) in *. field. first [split; [exact N | lra] | split; [lra | exact N]].
Qed.
Lemma ds_lift_ok M k y : ds_sync M -> norm_pixel (si M) k = Val y ->
  let r2 := u0 y * u0 y + u1 y * u1 y in
  let T := sa M * sqrt (1 - (2 * sa M - 1) * r2) + 1 - sa M in
  let mz := (1 - sa M * sa M * r2) * (1 / T) in
  let ka := (mz * sx M + sqrt (mz * mz + (1 - sx M * sx M) * r2)) * (1 / (mz * mz + r2)) in
  0 < 1 - (2 * sa M - 1) * r2 -> T <> 0 -> 0 < mz * mz + (1 - sx M * sx M) * r2 -> mz * mz + r2 <> 0 ->
  fst (ds_lift M k) = Val (V3 (ka * u0 y) (ka * u1 y) (ka * mz - sx M)).
Proof.
  intros S E. cbv zeta. intros P N Q Z. unfold ds_lift. rewrite E. cbv zeta. rewrite (ds_liftable_root M _ S (Rlt_le _ _ P)).
  destruct (Rlt_dec _ 0); [lra | ]. destruct (Req_EM_T _ 0); [contradiction | ].
  set (r2 := u0 y * u0 y + u1 y * u1 y) in *. set (T := sa M * sqrt (1 - (2 * sa M - 1) * r2) + 1 - sa M) in *.
  replace ((1 - sa M * sa M * r2) / T) with ((1 - sa M * sa M * r2) * (1 / T)) by (field; assumption).
  set (mz := (1 - sa M * sa M * r2) * (1 / T)) in *. destruct (Rlt_dec _ 0); [lra | ]. destruct (Req_EM_T _ 0); [contradiction | ].
  cbn [fst]. f_equal. f_equal; field; assumption.
Qed.
Lemma ds_pixel_jacobian M k p J b : ds_sync M -> ds_liftJ M k = (Val (p, J), b) ->
  fst (ds_lift M k) = Val p /\ pixel_jacobian (fun q => fst (ds_lift M q)) k J.
Proof.
  intros S E. unfold ds_liftJ in E. destruct (norm_pixel (si M) k) as [y | | | ] eqn:EN; try discriminate.
  assert (F : fu (si M) <> 0) by (unfold norm_pixel in EN; destruct (Req_EM_T (fu (si M)) 0); [discriminate | assumption]).
  assert (G : fv (si M) <> 0) by (unfold norm_pixel in EN; destruct (Req_EM_T (fu (si M)) 0); [discriminate | ]; destruct (Req_EM_T (fv (si M)) 0); [discriminate | assumption]).
  cbv zeta in E. destruct (ds_liftable2 M _); [ | discriminate]. set (r2 := u0 y * u0 y + u1 y * u1 y) in *.
  set (rad := 1 - (2 * sa M - 1) * r2) in *. destruct (Rlt_dec rad 0) as [ | NN]; [discriminate | ].
  destruct (Req_EM_T _ 0) as [ | NT]; [discriminate | ]. destruct (Req_EM_T _ 0) as [ | NS]; [discriminate | ].
  set (T := sa M * sqrt rad + 1 - sa M) in *. set (mz := (1 - sa M * sa M * r2) * (1 / T)) in *.
  destruct (Rle_dec _ 0) as [ | NQ]; [discriminate | ]. destruct (Req_EM_T _ 0) as [ | NK]; [discriminate | ].
  match type of E with (Val (?q, ?m), _) = _ => assert (EJ : J = m) by congruence; assert (Ep : p = q) by congruence end. clear E. subst J p.
  assert (P : 0 < rad). { apply Rnot_lt_le in NN. destruct NN as [ | Z]; [assumption | exfalso; apply NS; rewrite <- Z; apply sqrt_0]. }
  apply Rnot_le_lt in NQ.
  split; [exact (ds_lift_ok M k y S EN P NT NQ NK) | ].
  intros c t d Ec Hc. subst k. destruct (norm_pixel_derive (si M) c t d (proj1 S) F G Hc) as (g & Eg & Hg).
  assert (Egt : g t = y) by (rewrite Eg in EN; congruence). pose proof Hg as (G1 & G2). cbn [u0 u1] in G1, G2.
  assert (HR := r2_derive _ _ t _ _ G1 G2). cbv beta in HR.
  assert (P' : 0 < 1 - (2 * sa M - 1) * (u0 (g t) * u0 (g t) + u1 (g t) * u1 (g t))) by (rewrite Egt; exact P).
  assert (NT' : sa M * sqrt (1 - (2 * sa M - 1) * (u0 (g t) * u0 (g t) + u1 (g t) * u1 (g t))) + 1 - sa M <> 0) by (rewrite Egt; exact NT).
  assert (HM := mz_derive (sa M) _ t _ HR P' NT'). cbv zeta beta in HM.
  match type of HM with is_derive ?f t (?q * _) => set (mf := f) in *; set (dm := q) in * end.
  assert (Em : mf t = mz) by (unfold mf, mz, T, rad, r2; rewrite Egt; reflexivity).
  assert (NQ' : 0 < mf t * mf t + (1 - sx M * sx M) * (u0 (g t) * u0 (g t) + u1 (g t) * u1 (g t))) by (rewrite Em, Egt; exact NQ).
  assert (NK' : mf t * mf t + (u0 (g t) * u0 (g t) + u1 (g t) * u1 (g t)) <> 0) by (rewrite Em, Egt; exact NK).
  assert (HK := kappa_derive (sx M) _ mf t _ dm HR HM NQ' NK'). cbv zeta beta in HK.
  match type of HK with is_derive ?f t (?q * _) => set (kf := f) in *; set (dk := q) in * end.
  exists (fun s => V3 (kf s * u0 (g s)) (kf s * u1 (g s)) (kf s * mf s - sx M)). split.
  - assert (CR := derive_continuous _ _ _ HR). assert (CM := derive_continuous _ _ _ HM).
    assert (C1 : continuous (fun s => 1 - (2 * sa M - 1) * (u0 (g s) * u0 (g s) + u1 (g s) * u1 (g s))) t).
    { apply (continuous_minus (fun _ => 1)); [apply continuous_const | ]. apply (continuous_mult (fun _ => 2 * sa M - 1)); [apply continuous_const | exact CR]. }
    assert (C2 : continuous (fun s => sa M * sqrt (1 - (2 * sa M - 1) * (u0 (g s) * u0 (g s) + u1 (g s) * u1 (g s))) + 1 - sa M) t).
    { apply (continuous_minus (fun s => sa M * sqrt (1 - (2 * sa M - 1) * (u0 (g s) * u0 (g s) + u1 (g s) * u1 (g s))) + 1)); [ | apply continuous_const].
      apply (continuous_plus (fun s => sa M * sqrt (1 - (2 * sa M - 1) * (u0 (g s) * u0 (g s) + u1 (g s) * u1 (g s))))); [ | apply continuous_const].
      apply (continuous_mult (fun _ => sa M)); [apply continuous_const | ].
      apply (continuous_comp (fun s => 1 - (2 * sa M - 1) * (u0 (g s) * u0 (g s) + u1 (g s) * u1 (g s))) sqrt); [exact C1 | ].
      apply continuity_pt_filterlim. apply continuity_pt_sqrt. cbv beta. lra. }
    assert (CMM : continuous (fun s => mf s * mf s) t) by (apply (continuous_mult mf mf); exact CM).
    assert (C3 : continuous (fun s => mf s * mf s + (1 - sx M * sx M) * (u0 (g s) * u0 (g s) + u1 (g s) * u1 (g s))) t).
    { apply (continuous_plus (fun s => mf s * mf s)); [exact CMM | ]. apply (continuous_mult (fun _ => 1 - sx M * sx M)); [apply continuous_const | exact CR]. }
    assert (C4 : continuous (fun s => mf s * mf s + (u0 (g s) * u0 (g s) + u1 (g s) * u1 (g s))) t) by (apply (continuous_plus (fun s => mf s * mf s)); [exact CMM | exact CR]).
    eapply filter_imp; [ | exact (filter_and _ _ (locally_gt _ t _ C1 P') (filter_and _ _ (continuous_neq0 _ t C2 NT') (filter_and _ _ (locally_gt _ t _ C3 NQ') (continuous_neq0 _ t C4 NK'))))].
    cbv beta. intros s (Q1 & Q2 & Q3 & Q4). exact (ds_lift_ok M (c s) (g s) S (Eg s) Q1 Q2 Q3 Q4).
  - assert (D1 := mult_derive _ _ t _ _ HK G1). assert (D2 := mult_derive _ _ t _ _ HK G2).
    assert (D3 := is_derive_minus _ _ t _ _ (mult_derive _ _ t _ _ HK HM) (@is_derive_const R_AbsRing R_NormedModule (sx M) t)). cbv beta in D1, D2, D3.
    assert (Ek : kf t = (mz * sx M + sqrt (mz * mz + (1 - sx M * sx M) * r2)) * (1 / (mz * mz + r2))) by (unfold kf; rewrite Em; unfold r2; rewrite Egt; reflexivity).
    assert (Edm : dm = (1 / 2 * sa M - sa M * sa M) * (r2 * (sa M * sa M) - 1) * (1 / sqrt rad) * (1 / T * (1 / T)) - sa M * sa M * (1 / T))
      by (unfold dm, T, rad, r2; rewrite Egt; reflexivity).
    assert (Edk : dk = (sx M * dm + 1 / 2 * (1 / sqrt (mz * mz + (1 - sx M * sx M) * r2)) * (2 * mz * dm + 1 - sx M * sx M)) * (1 / (mz * mz + r2))
                       - (mz * sx M + sqrt (mz * mz + (1 - sx M * sx M) * r2)) * (2 * mz * dm + 1) * (1 / (mz * mz + r2) * (1 / (mz * mz + r2))))
      by (unfold dk; rewrite Em; unfold r2; rewrite Egt; reflexivity).
    rewrite <- Edm. rewrite <- Edk. rewrite <- Ek. rewrite Em, Egt in D3. rewrite Egt in D1, D2. clearbody dk dm kf.
    split; [ | split]; cbn [x0 x1 x2 m32_vec l00 l01 l10 l11 l20 l21];
      [eapply is_derive_eq; [ | exact D1] | eapply is_derive_eq; [ | exact D2] | eapply is_derive_eq; [ | exact D3]]; req;
      unfold minus, plus, opp, zero; cbn; ring.
Qed.

(** Parameters. *)
Lemma ds_set_sync M v : ds_sync (ds_set M v).
Proof. split; [split; reflexivity | ]. split; reflexivity. Qed.
Lemma ds_step_sync M o : ds_sync (ds_step M o).
Proof. destruct o; (split; [split; reflexivity | ]; split; reflexivity). Qed.
Lemma w_continuous (a : R -> R) t : continuous a t -> continuous (fun s => ds_w (a s)) t.
Proof.
  intros C. apply (continuous_ext (fun s => (1 - Rabs (1 - 2 * a s)) * / (1 + Rabs (1 - 2 * a s)))); [intros s; rewrite w_abs; reflexivity | ].
  assert (CA : continuous (fun s => Rabs (1 - 2 * a s)) t).
  { apply (continuous_comp (fun s => 1 - 2 * a s) Rabs); [ | apply continuous_Rabs].
    apply (continuous_minus (fun _ => 1)); [apply continuous_const | ]. apply (continuous_mult (fun _ => 2)); [apply continuous_const | exact C]. }
  apply (continuous_mult (fun s => 1 - Rabs (1 - 2 * a s))).
  - apply (continuous_minus (fun _ => 1)); [apply continuous_const | exact CA].
  - apply (continuous_comp (fun s => 1 + Rabs (1 - 2 * a s)) Rinv).
    + apply (continuous_plus (fun _ => 1)); [apply continuous_const | exact CA].
    + apply continuous_Rinv. assert (P := Rabs_pos (1 - 2 * a t)). lra.
Qed.
Lemma ds_accept_open M z d (q : R -> list R) t : continuous (fun s => nth 0 (q s) 0) t -> continuous (fun s => nth 1 (q s) 0) t -> -1 < nth 0 (q t) 0 ->
  ds_refused (ds_set M (q t)) z d = false -> locally t (fun s => ds_refused (ds_set M (q s)) z d = false).
Proof.
  intros CX CA X E. assert (CW := w_continuous _ t CA).
  set (w := fun s => ds_w (nth 1 (q s) 0)) in *. set (x := fun s => nth 0 (q s) 0) in *.
  set (c := fun s => 2 * w s * x s + x s * x s + 1).
  assert (CC : continuous c t).
  { apply (continuous_plus (fun s => 2 * w s * x s + x s * x s)); [ | apply continuous_const]. apply (continuous_plus (fun s => 2 * w s * x s)).
    - apply (continuous_mult (fun s => 2 * w s)); [ | exact CX]. apply (continuous_mult (fun _ => 2)); [apply continuous_const | exact CW].
    - apply (continuous_mult x x); exact CX. }
  assert (PC : 0 < c t) by (apply (fov_radicand (nth 1 (q t) 0) (nth 0 (q t) 0)); exact X).
  assert (CS : continuous (fun s => / sqrt (c s)) t).
  { apply (continuous_comp (fun s => sqrt (c s)) Rinv).
    - apply (continuous_comp c sqrt); [exact CC | ]. apply continuity_pt_filterlim. apply continuity_pt_sqrt. lra.
    - apply continuous_Rinv. assert (0 < sqrt (c t)) by (apply sqrt_lt_R0; exact PC). lra. }
  assert (CF : continuous (fun s => z + (w s + x s) / sqrt (c s) * d) t).
  { apply (continuous_plus (fun _ => z)); [apply continuous_const | ]. apply (continuous_mult (fun s => (w s + x s) / sqrt (c s))); [ | apply continuous_const].
    apply (continuous_mult (fun s => w s + x s)); [ | exact CS]. apply (continuous_plus w x); [exact CW | exact CX]. }
  assert (HS : forall s, -1 < x s -> (ds_refused (ds_set M (q s)) z d = true <-> z <= - ((w s + x s) / sqrt (c s) * d))).
  { intros s Xs. exact (ds_refused_spec (ds_set M (q s)) z d (ds_set_sync M _) Xs). }
  assert (L : 0 < z + (w t + x t) / sqrt (c t) * d).
  { apply Rnot_le_lt. intros L. assert (T : ds_refused (ds_set M (q t)) z d = true) by (apply HS; [exact X | lra]). congruence. }
  assert (CX1 : continuous (fun s => x s + 1) t) by (apply (continuous_plus x); [exact CX | apply continuous_const]).
  assert (PX1 : 0 < x t + 1) by (unfold x; lra).
  eapply filter_imp; [ | exact (filter_and _ _ (locally_gt _ t _ CF L) (locally_gt _ t _ CX1 PX1))].
  cbv beta. intros s (H1 & H2). apply not_true_is_false. rewrite (HS s) by lra. lra.
Qed.
Lemma ds_columns_jacobian M v p cols : -1 < nth 0 v 0 -> ds_refused (ds_set M v) (x2 p) (ds_d1 p) = false ->
  ds_intrJ (ds_set M v) p = Val cols -> image_param_jacobian 6 (fun w => fst (ds_project (ds_set M w) p)) v cols.
Proof.
  intros X ER E. unfold ds_intrJ in E. cbv zeta in E. destruct (Req_EM_T _ 0) as [ | N2]; [discriminate | ]. destruct (Req_EM_T _ 0) as [ | N]; [discriminate | ].
  match type of E with Val ?m = _ => assert (EC : cols = m) by congruence end. clear E.
  split; [subst cols; reflexivity | ]. intros q t dp Eq (L & H). rewrite (list6 dp L).
  assert (H0 := H 0%nat ltac:(lia)). assert (H1 := H 1%nat ltac:(lia)). assert (H2 := H 2%nat ltac:(lia)). assert (H3 := H 3%nat ltac:(lia)). assert (H4 := H 4%nat ltac:(lia)). assert (H5 := H 5%nat ltac:(lia)).
  assert (Q0 := Eq 0%nat ltac:(lia)). assert (Q1 := Eq 1%nat ltac:(lia)). assert (Q2 := Eq 2%nat ltac:(lia)). assert (Q3 := Eq 3%nat ltac:(lia)).
  assert (Q4 := Eq 4%nat ltac:(lia)). assert (Q5 := Eq 5%nat ltac:(lia)).
  assert (ES : ds_set M (q t) = ds_set M v) by (unfold ds_set; rewrite Q0, Q1, Q2, Q3, Q4, Q5; reflexivity).
  assert (KX := @is_derive_const R_AbsRing R_NormedModule (x0 p) t). assert (KY := @is_derive_const R_AbsRing R_NormedModule (x1 p) t). assert (KZ := @is_derive_const R_AbsRing R_NormedModule (x2 p) t).
  assert (KD1 := @is_derive_const R_AbsRing R_NormedModule (ds_d1 p) t).
  assert (KD := k_derive _ _ _ t _ _ _ H0 KD1 KZ). cbv beta in KD. change (@zero R_NormedModule) with 0 in KD.
  match type of KD with is_derive _ t ?e => change (is_derive (fun s => ds_k (ds_set M (q s)) p) t e) in KD end.
  assert (N2' : ds_d2 (ds_set M (q t)) p <> 0) by (rewrite ES; exact N2).
  assert (D2 := en_derive1 _ _ _ t _ _ _ KX KY KD (d2_rad _ _ N2')). cbv beta in D2. change (@zero R_NormedModule) with 0 in D2.
  match type of D2 with is_derive _ t (?e / _) => change (is_derive (fun s => ds_d2 (ds_set M (q s)) p) t (e / ds_d2 (ds_set M (q t)) p)) in D2 end.
  assert (BD := blend_derive _ _ _ t _ _ _ H1 D2 KD). cbv beta in BD. change (@zero R_NormedModule) with 0 in BD.
  match type of BD with is_derive _ t ?e => change (is_derive (fun s => ds_norm (ds_set M (q s)) p) t e) in BD end.
  assert (Nd' : ds_norm (ds_set M (q t)) p <> 0) by (rewrite ES; exact N).
  exists (fun s => to_pixel (si (ds_set M (q s))) (ds_point (ds_set M (q s)) p)). split.
  { assert (ER' : ds_refused (ds_set M (q t)) (x2 p) (ds_d1 p) = false) by (rewrite ES; exact ER). assert (X' : -1 < nth 0 (q t) 0) by (rewrite Q0; exact X).
    eapply filter_imp; [ | exact (filter_and _ _ (ds_accept_open M _ _ q t (derive_continuous _ _ _ H0) (derive_continuous _ _ _ H1) X' ER') (continuous_neq0 _ t (derive_continuous _ _ _ BD) Nd'))].
    cbv beta. intros s (Hr & Hn). rewrite (ds_project_ok _ p Hr Hn). reflexivity. }
  assert (PD := ratio_derive _ _ _ t _ _ _ KX KY BD Nd'). cbv beta in PD. change (@zero R_NormedModule) with 0 in PD.
  assert (FD := pixel_set_derive _ _ _ _ _ t _ _ _ _ _ H2 H3 H4 H5 PD). cbv beta in FD.
  eapply v2_derive_eq; [ | exact FD]. rewrite ES. rewrite Q0, Q1, Q2, Q3. subst cols. unfold combine_cols, v2_add, v2_scale. cbn [u0 u1 ds_set make_ds make_intr si fu fv sa nth].
  change (Ds (nth 0 v 0) _ _ _ _) with (ds_set M v) in *.
  set (n := ds_norm (ds_set M v) p) in *. set (e2 := ds_d2 (ds_set M v) p) in *. set (kk := ds_k (ds_set M v) p) in *.
  f_equal; field; first [split; [exact N | exact N2] | split; [exact N2 | exact N]].
Qed.

(** Resizing. *)
Lemma ds_resize_project M s p m n : ds_sync M -> 0 < s -> IZR (ru (si M)) * s = IZR m -> IZR (rv (si M)) * s = IZR n ->
  ds_project (ds_resize M s) p = (rbind (fst (ds_project M p)) (fun k => Val (v2_scale s k)), snd (ds_project M p)).
Proof.
  intros S P Em En. unfold ds_project.
  assert (ER : ds_refused (ds_resize M s) (x2 p) (ds_d1 p) = ds_refused M (x2 p) (ds_d1 p)).
  { unfold ds_refused. destruct S as (_ & _ & F). rewrite F. reflexivity. }
  rewrite ER. clear ER. destruct (ds_refused _ _ _); [reflexivity | ].
  change (ds_norm (ds_resize M s) p) with (ds_norm M p). destruct (Req_EM_T _ 0); [reflexivity | ]. cbv zeta. cbn [rbind fst snd].
  destruct (resize_pixel (si M) s (V2 (x0 p * (1 / ds_norm M p)) (x1 p * (1 / ds_norm M p))) m n P Em En) as (E1 & E2).
  unfold ds_resize, make_ds. cbn [si]. rewrite remake_pixel, E1. f_equal. exact E2.
Qed.

(** Coinciding spheres: the extended unified model with beta = 1. *)
Lemma ds_eucm a C p : ds_project (make_ds 0 a C) p = eucm_project (make_eucm a 1 C) p.
Proof.
  assert (S : eucm_sync (make_eucm a 1 C)) by (split; [split; reflexivity | ]; split; reflexivity).
  assert (B : 0 < eb (make_eucm a 1 C)) by (cbn; lra).
  assert (T : ds_sync (make_ds 0 a C)) by (split; [split; reflexivity | ]; split; reflexivity).
  assert (E1 : ds_d1 p = ellipsoid_norm 1 p) by (unfold ds_d1, ellipsoid_norm; rewrite Rmult_1_l; reflexivity).
  assert (EK : ds_k (make_ds 0 a C) p = x2 p) by (unfold ds_k; cbn [make_ds sx]; ring).
  assert (E2 : ds_d2 (make_ds 0 a C) p = ellipsoid_norm 1 p) by (unfold ds_d2; rewrite EK; exact E1).
  assert (ENR : ds_norm (make_ds 0 a C) p = a * ellipsoid_norm 1 p + (1 - a) * x2 p) by (unfold ds_norm; rewrite E2, EK; reflexivity).
  assert (HR := ds_refused_spec (make_ds 0 a C) (x2 p) (ds_d1 p) T ltac:(cbn; lra)). cbn [make_ds sa sx] in HR.
  replace (2 * ds_w a * 0 + 0 * 0 + 1) with 1 in HR by ring. rewrite sqrt_1 in HR. replace ((ds_w a + 0) / 1) with (ds_w a) in HR by field.
  change (Ds 0 a _ _ _) with (make_ds 0 a C) in HR. rewrite E1 in HR. destruct (en_z 1 p ltac:(lra)) as (Z1 & Z2).
  assert (FT := fov_test a (ellipsoid_norm 1 p) (x2 p) Z1 Z2). fold (ds_w a) in FT. unfold ds_project. rewrite E1, ENR.
  destruct (eucm_valid_dec a 1 p) as [V | V].
  - rewrite (eucm_project_valid (make_eucm a 1 C) p S B V).
    destruct (ds_refused _ _ _) eqn:ER; [exfalso; apply (proj1 FT); [apply HR; reflexivity | exact V] | ].
    destruct (Req_EM_T _ 0) as [Z | _]; [exfalso; destruct V; lra | reflexivity].
  - rewrite (eucm_project_invalid (make_eucm a 1 C) p S B V).
    destruct (ds_refused _ _ _) eqn:ER; [reflexivity | exfalso]. assert (false = true); [ | discriminate]. apply HR. apply FT. exact V.
Qed.
Lemma ds_of_omni C p : ds_project (ds_from_omni (make_omni 1 C)) p = omni_project nodist (make_omni 1 C) p.
Proof. unfold ds_from_omni. rewrite ds_eucm. exact (eucm_of_omni C p). Qed.

(** Random pixels. *)
Lemma dbl_max_pos : 0 < dbl_max.
Proof. unfold dbl_max. apply Rmult_lt_0_compat; [ | apply pow_lt; lra]. rewrite pow_IZR. apply Rlt_Rminus. apply IZR_lt. reflexivity. Qed.
Lemma div_nonneg n c : 0 < c -> 0 <= n / c -> 0 <= n.
Proof. intros P B. apply (Rmult_le_compat_r c) in B; [ | lra]. replace (n / c * c) with n in B by (field; lra). lra. Qed.
