(** * Proofs about the omnidirectional projection *)

From Coquelicot Require Import Coquelicot.
From Coq Require Import Reals List Psatz ZArith Bool.
From Verif Require Import KinModel KinSpec KinProofs KinExp KinCurve DistModel DistSpec DistProofs DistUndist PinModel CamSpec PinProofs OmniModel OmniSpec.
Import ListNotations.
Local Open Scope R_scope.

Lemma p_norm2 p : p_norm p * p_norm p = x0 p * x0 p + x1 p * x1 p + x2 p * x2 p.
Proof. unfold p_norm. apply sqrt_sqrt. nra. Qed.
Lemma p_norm_pos p : 0 <= p_norm p.
Proof. apply sqrt_pos. Qed.
Lemma p_norm_z p : x2 p <= p_norm p /\ - p_norm p <= x2 p.
Proof. assert (A := p_norm2 p). assert (B := p_norm_pos p). split; nra. Qed.

(** The test of the field of view, said symmetrically. *)
Definition omni_valid (x : R) (p : v3) : Prop := 0 < x2 p + x * p_norm p /\ 0 < p_norm p + x * x2 p.
Lemma omni_valid_spec M p : omni_sync M ->
  (x2 p <= - (fov_par M * p_norm p) <-> ~ omni_valid (xi M) p).
Proof.
  intros (_ & _ & F). rewrite F. unfold omni_valid. destruct (p_norm_z p) as (Z1 & Z2). assert (P := p_norm_pos p).
  set (d := p_norm p) in *. set (z := x2 p) in *. clearbody d z. destruct (Rle_dec (xi M) 1) as [L | G].
  - split.
    + intros H (A & _). lra.
    + intros H. apply Rnot_lt_le. intros C. apply H. assert (0 < d) by (destruct (Rle_lt_dec d 0); [nra | assumption]).
      split; [lra | ]. destruct (Rle_lt_dec 0 (xi M)); nra.
  - apply Rnot_le_lt in G. assert (I : xi M * (1 / xi M) = 1) by (field; lra).
    set (i := 1 / xi M) in *. clearbody i. assert (0 < i) by nra. assert (i < 1) by nra. split.
    + intros H1 (_ & B). nra.
    + intros H1. apply Rnot_lt_le. intros C. apply H1. assert (0 < d) by (destruct (Rle_lt_dec d 0); [nra | assumption]).
      split; [nra | ]. assert (xi M * z > - (xi M * (i * d))) by nra. replace (xi M * (i * d)) with (xi M * i * d) in * by ring. rewrite I in *. lra.
Qed.
Lemma omni_valid_pos x p : omni_valid x p -> 0 < p_norm p.
Proof.
  intros (A & B). destruct (p_norm_z p) as (Z1 & Z2). assert (P := p_norm_pos p).
  destruct (Rle_lt_dec (p_norm p) 0) as [L | L]; [ | exact L]. assert (E : p_norm p = 0) by lra. rewrite E in *. assert (x2 p = 0) by lra. rewrite H in *. lra.
Qed.

Definition omni_point (x : R) (p : v3) : v2 := V2 (x0 p * (1 / (x2 p + x * p_norm p))) (x1 p * (1 / (x2 p + x * p_norm p))).
Lemma omni_project_valid D M p : omni_sync M -> omni_valid (xi M) p ->
  omni_project D M p = (Val (to_pixel (oi M) (distort D (omni_point (xi M) p))),
                        on_sensor (oi M) (to_pixel (oi M) (distort D (omni_point (xi M) p)))).
Proof.
  intros S V. unfold omni_project. destruct (Rle_dec _ _) as [L | _]; [apply (omni_valid_spec M p S) in L; contradiction | ].
  destruct (Req_EM_T _ 0) as [Z | _]; [exfalso; destruct V; lra | reflexivity].
Qed.
Lemma omni_project_invalid D M p : omni_sync M -> ~ omni_valid (xi M) p -> omni_project D M p = (Unset, false).
Proof.
  intros S V. unfold omni_project. destruct (Rle_dec _ _) as [L | L]; [reflexivity | ].
  exfalso. apply L. apply (omni_valid_spec M p S). exact V.
Qed.
Lemma omni_project_val D M p k b : omni_sync M -> omni_project D M p = (Val k, b) ->
  omni_valid (xi M) p /\ k = to_pixel (oi M) (distort D (omni_point (xi M) p)) /\ b = on_sensor (oi M) k.
Proof.
  intros S E. unfold omni_project in E. destruct (Rle_dec _ _) as [L | L]; [discriminate | ].
  destruct (Req_EM_T _ 0); [discriminate | ].
  assert (Ek : k = to_pixel (oi M) (distort D (omni_point (xi M) p))) by (unfold omni_point; congruence).
  split; [ | split; [exact Ek | congruence]].
  destruct (Rlt_dec 0 (x2 p + xi M * p_norm p)) as [A | A]; [destruct (Rlt_dec 0 (p_norm p + xi M * x2 p)) as [B | B] | ];
    [split; assumption | | ]; exfalso; apply L; apply (omni_valid_spec M p S); intros (? & ?); contradiction.
Qed.

Lemma omni_overloads D M p : omni_sync M -> (forall y, fst (distortJ D y) = distort D y) ->
  fst (fst (omni_projectJ D M p)) = fst (omni_project D M p) /\ snd (omni_projectJ D M p) = snd (omni_project D M p).
Proof.
  intros S H. unfold omni_projectJ, omni_project. destruct (Rle_dec _ _) as [L | L]; [split; reflexivity | ].
  assert (V : omni_valid (xi M) p).
  { destruct (Rlt_dec 0 (x2 p + xi M * p_norm p)) as [A | A]; [destruct (Rlt_dec 0 (p_norm p + xi M * x2 p)) as [B | B] | ];
    [split; assumption | | ]; exfalso; apply L; apply (omni_valid_spec M p S); intros (? & ?); contradiction. }
  assert (P := omni_valid_pos _ _ V). destruct (Req_EM_T (x2 p + xi M * p_norm p) 0); [split; reflexivity | ].
  destruct (Req_EM_T (p_norm p) 0); [lra | ].
  set (rz := 1 / (x2 p + xi M * p_norm p)). assert (E := H (V2 (x0 p * rz) (x1 p * rz))).
  destruct (distortJ D (V2 (x0 p * rz) (x1 p * rz))) as [kp Jd]. cbn [fst] in E. subst kp. split; reflexivity.
Qed.

(** Derivatives. *)
Lemma omni_curve (x y z n e : R -> R) (t dx dy dz dn de : R) :
  is_derive x t dx -> is_derive y t dy -> is_derive z t dz -> is_derive n t dn -> is_derive e t de -> z t + e t * n t <> 0 ->
  v2_derive (fun s => V2 (x s * (1 / (z s + e s * n s))) (y s * (1 / (z s + e s * n s)))) t
    (V2 (dx * (1 / (z t + e t * n t)) - x t * (dz + de * n t + e t * dn) * (1 / (z t + e t * n t) * (1 / (z t + e t * n t))))
        (dy * (1 / (z t + e t * n t)) - y t * (dz + de * n t + e t * dn) * (1 / (z t + e t * n t) * (1 / (z t + e t * n t))))).
Proof.
  intros X Y Z NN E N. derive_ex X. derive_ex Y. derive_ex Z. derive_ex NN. derive_ex E. split; cbn [u0 u1]; auto_derive; try tauto;
    derive_sub X; derive_sub Y; derive_sub Z; derive_sub NN; derive_sub E; req; field; exact N.
Qed.
Lemma p_norm_derive (c : R -> v3) t d : v3_derive c t d -> 0 < p_norm (c t) ->
  is_derive (fun s => p_norm (c s)) t ((x0 (c t) * x0 d + x1 (c t) * x1 d + x2 (c t) * x2 d) / p_norm (c t)).
Proof.
  intros H P. exact (norm_derive c t d H P).
Qed.
Lemma omni_valid_locally x (c : R -> v3) t d : v3_derive c t d -> omni_valid x (c t) -> locally t (fun s => omni_valid x (c s)).
Proof.
  intros H V. assert (N := p_norm_derive c t d H (omni_valid_pos _ _ V)). destruct H as (_ & _ & Z). destruct V as (A & B).
  assert (CZ := derive_continuous _ _ _ Z). assert (CN := derive_continuous _ _ _ N).
  assert (C1 : continuous (fun s => x2 (c s) + x * p_norm (c s)) t).
  { apply (continuous_plus (fun s => x2 (c s)) (fun s => x * p_norm (c s))); [exact CZ | ].
    apply (continuous_mult (fun _ => x) (fun s => p_norm (c s))); [apply continuous_const | exact CN]. }
  assert (C2 : continuous (fun s => p_norm (c s) + x * x2 (c s)) t).
  { apply (continuous_plus (fun s => p_norm (c s)) (fun s => x * x2 (c s))); [exact CN | ].
    apply (continuous_mult (fun _ => x) (fun s => x2 (c s))); [apply continuous_const | exact CZ]. }
  eapply filter_imp; [ | exact (filter_and _ _ (locally_gt _ t _ C1 A) (locally_gt _ t _ C2 B))]. cbv beta. intros s Hs. exact Hs.
Qed.

Lemma omni_J_algebra (e x y z n dx dy dz : R) : n * n = x * x + y * y + z * z -> n <> 0 -> z + e * n <> 0 ->
  let rz := 1 / (z + e * n) in
  let dn := (x * dx + y * dy + z * dz) / n in
  dx * rz - x * (dz + 0 * n + e * dn) * (rz * rz) =
    rz * rz / n * (n * z + e * (y * y + z * z)) * dx + (- (rz * rz / n) * e * x * y) * dy + x * (rz * rz / n * (- e * z - n)) * dz /\
  dy * rz - y * (dz + 0 * n + e * dn) * (rz * rz) =
    (- (rz * rz / n) * e * x * y) * dx + rz * rz / n * (n * z + e * (x * x + z * z)) * dy + y * (rz * rz / n * (- e * z - n)) * dz.
Proof. intros Q N M. cbv zeta. split; field [Q]; split; assumption. Qed.

Lemma omni_point_jacobian D M p Jd J : omni_sync M -> omni_valid (xi M) p ->
  snd (distortJ D (omni_point (xi M) p)) = Val Jd -> jacobian (distort D) (omni_point (xi M) p) Jd ->
  snd (fst (omni_projectJ D M p)) = Val J ->
  point_jacobian (fun q => fst (omni_project D M q)) p J.
Proof.
  intros S V ED HJ E c t d Ec Hc. subst p. assert (P := omni_valid_pos _ _ V).
  exists (fun s => to_pixel (oi M) (distort D (omni_point (xi M) (c s)))). split.
  { eapply filter_imp; [ | exact (omni_valid_locally _ c t d Hc V)]. cbv beta. intros s Hs. rewrite (omni_project_valid D M (c s) S Hs). reflexivity. }
  assert (NN := p_norm_derive c t d Hc P). pose proof Hc as (A & B & Z).
  assert (Nd : x2 (c t) + xi M * p_norm (c t) <> 0) by (destruct V; lra).
  assert (PD := omni_curve _ _ _ _ _ t _ _ _ _ _ A B Z NN (@is_derive_const R_AbsRing R_NormedModule (xi M) t) Nd).
  cbv beta in PD. change (@zero R_NormedModule) with 0 in PD.
  assert (H := HJ (fun s => omni_point (xi M) (c s)) t _ eq_refl PD).
  eapply v2_derive_eq; [ | exact (to_pixel_derive (oi M) _ t _ H)].
  unfold omni_projectJ in E. destruct (Rle_dec _ _) as [L | _]; [apply (omni_valid_spec M (c t) S) in L; contradiction | ].
  destruct (Req_EM_T _ 0); [contradiction | ]. destruct (Req_EM_T _ 0); [lra | ].
  unfold omni_point in ED. destruct (distortJ D _) as [kp Jr]. cbn [snd] in ED. subst Jr. cbn [rbind fst snd] in E.
  match type of E with Val ?m = Val _ => assert (EJ : J = m) by congruence end. clear E. subst J.
  assert (Q := p_norm2 (c t)).
  destruct (omni_J_algebra (xi M) (x0 (c t)) (x1 (c t)) (x2 (c t)) (p_norm (c t)) (x0 d) (x1 d) (x2 d) Q ltac:(lra) Nd) as (E1 & E2).
  cbv zeta in E1, E2. unfold m23_vec, m2_vec. cbn [u0 u1 j00 j01 j02 j10 j11 j12]. rewrite E1, E2. f_equal; ring.
Qed.

(** Rays. *)
Lemma p_norm_ray s p : 0 <= s -> p_norm (along_ray s p) = s * p_norm p.
Proof.
  intros P. unfold p_norm, along_ray. cbn [x0 x1 x2].
  replace (s * x0 p * (s * x0 p) + s * x1 p * (s * x1 p) + s * x2 p * (s * x2 p)) with ((s * s) * (x0 p * x0 p + x1 p * x1 p + x2 p * x2 p)) by ring.
  rewrite sqrt_mult by nra. rewrite sqrt_square by exact P. reflexivity.
Qed.
Lemma omni_ray D M p s : omni_sync M -> 0 < s -> omni_project D M (along_ray s p) = omni_project D M p.
Proof.
  intros S P. assert (PN := p_norm_ray s p (Rlt_le _ _ P)).
  assert (VV : omni_valid (xi M) (along_ray s p) <-> omni_valid (xi M) p).
  { unfold omni_valid. rewrite PN. cbn [along_ray x2]. split; intros (A & B); split; nra. }
  assert (DE : omni_valid (xi M) p \/ ~ omni_valid (xi M) p).
  { unfold omni_valid. destruct (Rlt_dec 0 (x2 p + xi M * p_norm p)), (Rlt_dec 0 (p_norm p + xi M * x2 p)); tauto. }
  destruct DE as [V | V].
  - assert (V' := proj2 VV V). rewrite (omni_project_valid D M _ S V), (omni_project_valid D M _ S V').
    replace (omni_point (xi M) (along_ray s p)) with (omni_point (xi M) p); [reflexivity | ].
    unfold omni_point. rewrite PN. cbn [along_ray x0 x1 x2]. destruct V as (A & _). assert (0 < s * x2 p + xi M * (s * p_norm p)) by (replace (s * x2 p + xi M * (s * p_norm p)) with (s * (x2 p + xi M * p_norm p)) by ring; nra). f_equal; field; repeat apply conj; apply Rgt_not_eq; lra.
  - rewrite (omni_project_invalid D M _ S V), (omni_project_invalid D M (along_ray s p) S ltac:(tauto)). reflexivity.
Qed.

(** Homogeneous points. *)
Lemma h_ray (f : v3 -> res v2 * bool) ph s : (forall p a, 0 < a -> f (along_ray a p) = f p) -> s <> 0 -> q3 ph <> 0 ->
  (if Rlt_dec (q3 (along_hray s ph)) 0 then f (neg3 (head3 (along_hray s ph))) else f (head3 (along_hray s ph))) =
  (if Rlt_dec (q3 ph) 0 then f (neg3 (head3 ph)) else f (head3 ph)).
Proof.
  intros H S N. unfold along_hray, head3, neg3. cbn [q0 q1 q2 q3 x0 x1 x2].
  destruct (Rlt_dec (q3 ph) 0) as [A | A]; destruct (Rlt_dec (s * q3 ph) 0) as [B | B].
  - assert (0 < s) by nra. rewrite <- (H (V3 (- q0 ph) (- q1 ph) (- q2 ph)) s H0). f_equal. unfold along_ray. cbn [x0 x1 x2]. f_equal; ring.
  - assert (s < 0) by nra. rewrite <- (H (V3 (- q0 ph) (- q1 ph) (- q2 ph)) (- s) ltac:(lra)). f_equal. unfold along_ray. cbn [x0 x1 x2]. f_equal; ring.
  - assert (s < 0) by nra. rewrite <- (H (V3 (q0 ph) (q1 ph) (q2 ph)) (- s) ltac:(lra)). f_equal. unfold along_ray. cbn [x0 x1 x2]. f_equal; ring.
  - assert (0 < s) by nra. rewrite <- (H (V3 (q0 ph) (q1 ph) (q2 ph)) s H0). f_equal.
Qed.

(** ** Lifting *)
Lemma omni_norm_pixel M y : omni_sync M -> fu (oi M) <> 0 -> fv (oi M) <> 0 -> omni_norm M (to_pixel (oi M) y) = Val y.
Proof.
  intros ((S1 & S2) & _) A B. unfold omni_norm, to_pixel. destruct (Req_EM_T (fu (oi M)) 0); [contradiction | ].
  destruct (Req_EM_T (fv (oi M)) 0); [contradiction | ]. rewrite S1, S2. cbn [u0 u1]. f_equal. destruct y as [a b]. cbn [u0 u1]. f_equal; field; assumption.
Qed.
Lemma pixel_omni_norm M k y : omni_sync M -> omni_norm M k = Val y -> to_pixel (oi M) y = k.
Proof.
  intros ((S1 & S2) & _). unfold omni_norm, to_pixel. destruct (Req_EM_T (fu (oi M)) 0); [discriminate | ]. destruct (Req_EM_T (fv (oi M)) 0); [discriminate | ].
  rewrite S1, S2. intros E. assert (E' : y = V2 (1 / fu (oi M) * (u0 k - cu (oi M))) (1 / fv (oi M) * (u1 k - cv (oi M)))) by congruence. subst y. cbn [u0 u1].
  destruct k as [a b]. cbn [u0 u1]. f_equal; field; assumption.
Qed.

(** The root of the lifting function at the normalised image of a point. *)
Lemma omni_root x p : omni_valid x p ->
  let y := omni_point x p in let rho2 := u0 y * u0 y + u1 y * u1 y in
  1 + (1 - x * x) * rho2 = ((p_norm p + x * x2 p) / (x2 p + x * p_norm p)) * ((p_norm p + x * x2 p) / (x2 p + x * p_norm p)) /\
  sqrt (1 + (1 - x * x) * rho2) = (p_norm p + x * x2 p) / (x2 p + x * p_norm p) /\
  0 < x + sqrt (1 + (1 - x * x) * rho2) /\
  1 - x * (rho2 + 1) / (x + sqrt (1 + (1 - x * x) * rho2)) = x2 p * (1 / (x2 p + x * p_norm p)).
Proof.
  intros V. cbv zeta. assert (P := omni_valid_pos _ _ V). destruct V as (A & B). assert (Q := p_norm2 p).
  set (n := p_norm p) in *. unfold omni_point. fold n. cbn [u0 u1].
  assert (E1 : 1 + (1 - x * x) * (x0 p * (1 / (x2 p + x * n)) * (x0 p * (1 / (x2 p + x * n))) + x1 p * (1 / (x2 p + x * n)) * (x1 p * (1 / (x2 p + x * n))))
     = ((n + x * x2 p) / (x2 p + x * n)) * ((n + x * x2 p) / (x2 p + x * n))).
  { assert (Q' : x0 p * x0 p = n * n - x1 p * x1 p - x2 p * x2 p) by lra. field [Q']. lra. }
  assert (S0 : 0 < (n + x * x2 p) / (x2 p + x * n)) by (apply Rdiv_lt_0_compat; assumption).
  assert (E2 : sqrt (((n + x * x2 p) / (x2 p + x * n)) * ((n + x * x2 p) / (x2 p + x * n))) = (n + x * x2 p) / (x2 p + x * n)) by (apply sqrt_square; lra).
  rewrite E1, E2.
  assert (NZ : n * n + 2 * (x * x2 p * n) + x * x * (n * n) = (x2 p + x * n) * (x2 p + x * n) + (x0 p * x0 p + x1 p * x1 p)) by (rewrite Q; nra).
  assert (PZ : 0 < n * n + 2 * (x * x2 p * n) + x * x * (n * n)) by (rewrite NZ; nra).
  assert (PW : 0 < n + 2 * (x * x2 p) + x * x * n).
  { assert (0 < n * (n + 2 * (x * x2 p) + x * x * n)) by lra. nra. }
  assert (ED : x + (n + x * x2 p) / (x2 p + x * n) = (n + 2 * (x * x2 p) + x * x * n) / (x2 p + x * n)) by (field; lra).
  split; [reflexivity | ]. split; [reflexivity | ]. split; [rewrite ED; apply Rdiv_lt_0_compat; lra | ].
  rewrite ED. assert (Q' : x0 p * x0 p = n * n - x1 p * x1 p - x2 p * x2 p) by lra. field [Q']. split; lra.
Qed.

Lemma omni_lift_project D M p k b : omni_sync M -> fu (oi M) <> 0 -> fv (oi M) <> 0 ->
  omni_project D M p = (Val k, b) -> undistort D (distort D (omni_point (xi M) p)) = Val (omni_point (xi M) p) ->
  omni_lift D M k = (Val (along_ray (1 / (x2 p + xi M * p_norm p)) p), true).
Proof.
  intros S A B E H. destruct (omni_project_val D M p k b S E) as (V & Ek & _). subst k.
  unfold omni_lift. rewrite (omni_norm_pixel M _ S A B). cbn [rbind]. rewrite H.
  destruct (omni_root (xi M) p V) as (E1 & E2 & E3 & E4). set (y := omni_point (xi M) p) in *. set (rho2 := u0 y * u0 y + u1 y * u1 y) in *.
  assert (L : omni_liftable2 M rho2 = true).
  { unfold omni_liftable2. apply orb_true_iff. rewrite !leb_spec. destruct (Rle_lt_dec (xi M) 1) as [X | X]; [left; exact X | right].
    destruct S as (_ & O & _). rewrite O. assert (0 < xi M * xi M - 1) by nra.
    assert (0 <= 1 + (1 - xi M * xi M) * rho2) by (rewrite E1; apply Rle_0_sqr).
    apply (Rle_div_r rho2 1 (xi M * xi M - 1)); lra. }
  rewrite L. destruct (Rlt_dec _ 0) as [N | _]; [rewrite E1 in N; pose proof (Rle_0_sqr ((p_norm p + xi M * x2 p) / (x2 p + xi M * p_norm p))); unfold Rsqr in *; lra | ].
  destruct (Req_EM_T _ 0); [lra | ]. rewrite E4. f_equal. f_equal. unfold along_ray, y, omni_point. cbn [u0 u1]. f_equal; ring.
Qed.

(** The lifted point of a normalised image. *)
Lemma omni_back x y : let rho2 := u0 y * u0 y + u1 y * u1 y in
  let s := sqrt (1 + (1 - x * x) * rho2) in let p := V3 (u0 y) (u1 y) (1 - x * (rho2 + 1) / (x + s)) in
  -1 < x -> 0 < 1 + (1 - x * x) * rho2 -> 0 < x + s /\ x2 p + x * p_norm p = 1 /\ omni_valid x p.
Proof.
  cbv zeta. set (rho2 := u0 y * u0 y + u1 y * u1 y). assert (R0 : 0 <= rho2) by (unfold rho2; nra).
  intros X P. set (s := sqrt (1 + (1 - x * x) * rho2)).
  assert (S2 : s * s = 1 + (1 - x * x) * rho2) by (apply sqrt_sqrt; lra). assert (S0 : 0 < s) by (apply sqrt_lt_R0; exact P).
  assert (XS : 0 < x + s). { destruct (Rle_lt_dec 0 x); [lra | ]. assert (0 <= (1 - x * x) * rho2) by (apply Rmult_le_pos; nra). nra. }
  set (z := 1 - x * (rho2 + 1) / (x + s)).
  assert (ND : p_norm (V3 (u0 y) (u1 y) z) = (rho2 + 1) / (x + s)).
  { unfold p_norm. cbn [x0 x1 x2]. fold rho2. rewrite <- (sqrt_square ((rho2 + 1) / (x + s))); [ | apply Rlt_le, Rdiv_lt_0_compat; lra]. f_equal.
    unfold z. field_simplify_eq; [ | lra]. ring [S2]. }
  split; [exact XS | ]. cbn [x2].
  assert (ONE : z + x * p_norm (V3 (u0 y) (u1 y) z) = 1) by (rewrite ND; unfold z; field; lra).
  split; [exact ONE | ]. unfold omni_valid. cbn [x2]. rewrite ONE. split; [lra | ].
  rewrite ND. unfold z. replace ((rho2 + 1) / (x + s) + x * (1 - x * (rho2 + 1) / (x + s))) with (((1 - x * x) * (rho2 + 1) + x * (x + s)) / (x + s)) by (field; lra).
  apply Rdiv_lt_0_compat; [ | exact XS]. replace ((1 - x * x) * (rho2 + 1) + x * (x + s)) with (s * s + x * s) by (rewrite S2; ring). nra.
Qed.

Lemma omni_project_lift D M k p b : omni_sync M -> -1 < xi M -> (forall y x, undistort D y = Val x -> distort D x = y) ->
  omni_lift D M k = (Val p, b) -> (1 < xi M -> u0 (V2 (x0 p) (x1 p)) * x0 p + x1 p * x1 p <> 1 / (xi M * xi M - 1)) ->
  omni_project D M p = (Val k, on_sensor (oi M) k) /\ b = true.
Proof.
  intros S X H E NB. unfold omni_lift in E. destruct (omni_norm M k) as [kp | | | ] eqn:EN; cbn [rbind] in E; try discriminate.
  destruct (undistort D kp) as [y | | | ] eqn:EU; try discriminate.
  destruct (omni_liftable2 M (u0 y * u0 y + u1 y * u1 y)) eqn:L; [ | discriminate].
  destruct (Rlt_dec _ 0) as [ | NN]; [discriminate | ]. destruct (Req_EM_T _ 0); [discriminate | ].
  match type of E with (Val ?q, _) = _ => assert (Ep : p = q) by congruence end. assert (Eb : b = true) by congruence. clear E. subst p b. split; [ | reflexivity].
  cbn [x0 x1 u0] in NB.
  assert (P : 0 < 1 + (1 - xi M * xi M) * (u0 y * u0 y + u1 y * u1 y)).
  { apply Rnot_lt_le in NN. destruct NN as [ | Z]; [assumption | exfalso].
    destruct (Rle_lt_dec (xi M) 1) as [X1 | X1].
    - assert (0 <= 1 - xi M * xi M) by nra. assert (0 <= u0 y * u0 y + u1 y * u1 y) by nra. assert (0 <= (1 - xi M * xi M) * (u0 y * u0 y + u1 y * u1 y)) by (apply Rmult_le_pos; assumption). lra.
    - apply (NB X1). assert (0 < xi M * xi M - 1) by nra. apply (Rmult_eq_reg_r (xi M * xi M - 1)); [ | lra]. field_simplify; [ | lra]. lra. }
  destruct (omni_back (xi M) y X P) as (_ & ONE & V). rewrite (omni_project_valid D M _ S V).
  assert (EP : omni_point (xi M) (V3 (u0 y) (u1 y) (1 - xi M * (u0 y * u0 y + u1 y * u1 y + 1) / (xi M + sqrt (1 + (1 - xi M * xi M) * (u0 y * u0 y + u1 y * u1 y))))) = y).
  { unfold omni_point. cbn [x0 x1]. rewrite ONE. destruct y as [a b]. cbn [u0 u1]. f_equal; field. }
  rewrite EP, (H _ _ EU), (pixel_omni_norm M k kp S EN). reflexivity.
Qed.

(** The Jacobian of the lifting. *)
Lemma continuous_neq0 (f : R -> R) t : continuous f t -> f t <> 0 -> locally t (fun s => f s <> 0).
Proof.
  intros H N. assert (C : continuous (fun s => f s * f s) t) by (apply (continuous_mult f f); exact H).
  eapply filter_imp; [ | exact (locally_gt _ t 0 C ltac:(cbv beta; nra))]. cbv beta. intros s Hs E. rewrite E in Hs. lra.
Qed.
Lemma lift_z_derive (x : R) (a b : R -> R) t da db : is_derive a t da -> is_derive b t db ->
  0 < 1 + (1 - x * x) * (a t * a t + b t * b t) -> x + sqrt (1 + (1 - x * x) * (a t * a t + b t * b t)) <> 0 ->
  let Z := sqrt (1 + (1 - x * x) * (a t * a t + b t * b t)) in
  let A := x + Z in
  let mul := - x * (2 * (1 / A) + 1 / A * (1 / A) * (x * x - 1) * (1 / Z) * (a t * a t + b t * b t + 1)) in
  is_derive (fun s => 1 - x * (a s * a s + b s * b s + 1) / (x + sqrt (1 + (1 - x * x) * (a s * a s + b s * b s)))) t
    (a t * mul * da + b t * mul * db).
Proof.
  intros HA HB P N. cbv zeta. derive_ex HA. derive_ex HB. auto_derive; [tauto | ]. derive_sub HA. derive_sub HB. req.
  assert (0 < sqrt (1 + (1 - x * x) * (a t * a t + b t * b t))) by (apply sqrt_lt_R0; exact P).
  field. split; [lra | exact N].
Qed.
Lemma omni_liftable_root M r : omni_sync M -> 0 <= 1 + (1 - xi M * xi M) * r -> omni_liftable2 M r = true.
Proof.
  intros (_ & O & _) H. unfold omni_liftable2. apply orb_true_iff. rewrite !leb_spec. destruct (Rle_lt_dec (xi M) 1) as [X | X]; [left; exact X | right].
  rewrite O. assert (0 < xi M * xi M - 1) by nra. apply (Rle_div_r r 1 (xi M * xi M - 1)); lra.
Qed.
Lemma omni_pixel_jacobian D M k y K kp p J b : omni_sync M -> omni_norm M k = Val kp ->
  undistort D kp = Val y -> undistortJ D kp = Val (y, K) -> plane_jacobian (undistort D) kp K ->
  omni_liftJ D M k = (Val (p, J), b) -> pixel_jacobian (fun q => fst (omni_lift D M q)) k J /\ fst (omni_lift D M k) = Val p.
Proof.
  intros S EN EU0 EU HK E. pose proof S as ((S1 & S2) & _).
  assert (A : fu (oi M) <> 0) by (unfold omni_norm in EN; destruct (Req_EM_T (fu (oi M)) 0); [discriminate | assumption]).
  assert (B : fv (oi M) <> 0) by (unfold omni_norm in EN; destruct (Req_EM_T (fu (oi M)) 0); [discriminate | ]; destruct (Req_EM_T (fv (oi M)) 0); [discriminate | assumption]).
  unfold omni_liftJ in E. rewrite EN in E. cbn [rbind] in E. rewrite EU in E.
  destruct (omni_liftable2 M _); [ | discriminate]. destruct (Rlt_dec _ 0) as [ | NN]; [discriminate | ].
  replace (- (u0 y * u0 y + u1 y * u1 y) * (xi M * xi M - 1) + 1) with (1 + (1 - xi M * xi M) * (u0 y * u0 y + u1 y * u1 y)) in * by ring.
  destruct (Req_EM_T (xi M + _) 0) as [ | NA]; [discriminate | ]. destruct (Req_EM_T _ 0) as [ | NZ]; [discriminate | ].
  match type of E with (Val (?q, ?m), _) = _ => assert (EJ : J = m) by congruence; assert (Ep : p = q) by congruence end. clear E. subst J p.
  assert (P : 0 < 1 + (1 - xi M * xi M) * (u0 y * u0 y + u1 y * u1 y)).
  { apply Rnot_lt_le in NN. destruct NN as [ | Z]; [assumption | exfalso; apply NZ; rewrite <- Z; apply sqrt_0]. }
  assert (LV : forall q z, rbind (omni_norm M q) (undistort D) = Val z -> 0 < 1 + (1 - xi M * xi M) * (u0 z * u0 z + u1 z * u1 z) ->
     xi M + sqrt (1 + (1 - xi M * xi M) * (u0 z * u0 z + u1 z * u1 z)) <> 0 ->
     fst (omni_lift D M q) = Val (V3 (u0 z) (u1 z) (1 - xi M * (u0 z * u0 z + u1 z * u1 z + 1) / (xi M + sqrt (1 + (1 - xi M * xi M) * (u0 z * u0 z + u1 z * u1 z)))))).
  { intros q z Eq Pq Nq. unfold omni_lift. rewrite Eq. rewrite (omni_liftable_root M _ S (Rlt_le _ _ Pq)). destruct (Rlt_dec _ 0); [lra | ].
    destruct (Req_EM_T _ 0); [contradiction | reflexivity]. }
  split; [ | rewrite (LV k y); [ | rewrite EN; exact EU0 | exact P | exact NA]; f_equal; f_equal; field; exact NA].
  intros c t d Ec (X & Y). subst k.
  assert (Nk : forall q, omni_norm M q = Val (V2 (1 / fu (oi M) * (u0 q - cu (oi M))) (1 / fv (oi M) * (u1 q - cv (oi M))))).
  { intros q. unfold omni_norm. destruct (Req_EM_T (fu (oi M)) 0); [contradiction | ]. destruct (Req_EM_T (fv (oi M)) 0); [contradiction | ]. rewrite S1, S2. reflexivity. }
  assert (DK : v2_derive (fun s => V2 (1 / fu (oi M) * (u0 (c s) - cu (oi M))) (1 / fv (oi M) * (u1 (c s) - cv (oi M)))) t (V2 (u0 d / fu (oi M)) (u1 d / fv (oi M)))).
  { split; cbn [u0 u1].
    - eapply is_derive_eq; [ | exact (is_derive_scal _ t (1 / fu (oi M)) _ (is_derive_minus _ _ t _ _ X (@is_derive_const R_AbsRing R_NormedModule (cu (oi M)) t)))].
      req. unfold scal, minus, plus, opp, zero; cbn. field. exact A.
    - eapply is_derive_eq; [ | exact (is_derive_scal _ t (1 / fv (oi M)) _ (is_derive_minus _ _ t _ _ Y (@is_derive_const R_AbsRing R_NormedModule (cv (oi M)) t)))].
      req. unfold scal, minus, plus, opp, zero; cbn. field. exact B. }
  rewrite Nk in EN. assert (EK : kp = V2 (1 / fu (oi M) * (u0 (c t) - cu (oi M))) (1 / fv (oi M) * (u1 (c t) - cv (oi M)))) by congruence.
  destruct (HK _ t _ (eq_sym EK) DK) as (g & L & G).
  assert (Eg : g t = y). { assert (L' := locally_singleton _ _ L). cbv beta in L'. rewrite <- EK, EU0 in L'. congruence. }
  unfold m2_vec in G. cbn [u0 u1] in G. destruct G as (G1 & G2). cbn [u0 u1] in G1, G2.
  pose proof P as P'. pose proof NA as NA'. rewrite <- Eg in P', NA'.
  assert (DZ := lift_z_derive (xi M) _ _ t _ _ G1 G2 P' NA'). cbv zeta beta in DZ.
  exists (fun s => V3 (u0 (g s)) (u1 (g s)) (1 - xi M * (u0 (g s) * u0 (g s) + u1 (g s) * u1 (g s) + 1) / (xi M + sqrt (1 + (1 - xi M * xi M) * (u0 (g s) * u0 (g s) + u1 (g s) * u1 (g s)))))).
  split.
  - assert (C1 := derive_continuous _ _ _ G1). assert (C2 := derive_continuous _ _ _ G2).
    assert (CR : continuous (fun s => 1 + (1 - xi M * xi M) * (u0 (g s) * u0 (g s) + u1 (g s) * u1 (g s))) t).
    { apply (continuous_plus (fun _ => 1)); [apply continuous_const | ]. apply (continuous_mult (fun _ => 1 - xi M * xi M)); [apply continuous_const | ].
      apply (continuous_plus (fun s => u0 (g s) * u0 (g s))); [apply (continuous_mult (fun s => u0 (g s)) (fun s => u0 (g s))); assumption | ].
      apply (continuous_mult (fun s => u1 (g s)) (fun s => u1 (g s))); assumption. }
    assert (CA : continuous (fun s => xi M + sqrt (1 + (1 - xi M * xi M) * (u0 (g s) * u0 (g s) + u1 (g s) * u1 (g s)))) t).
    { apply (continuous_plus (fun _ => xi M)); [apply continuous_const | ].
      apply (continuous_comp (fun s => 1 + (1 - xi M * xi M) * (u0 (g s) * u0 (g s) + u1 (g s) * u1 (g s))) sqrt); [exact CR | ].
      apply continuity_pt_filterlim. apply continuity_pt_sqrt. cbv beta. lra. }
    eapply filter_imp; [ | exact (filter_and _ _ L (filter_and _ _ (locally_gt _ t _ CR P') (continuous_neq0 _ t CA NA')))].
    cbv beta. intros s (Hs & PP & QQ). apply LV; [rewrite Nk; exact Hs | exact PP | exact QQ].
  - rewrite Eg in DZ. split; [ | split]; cbn [x0 x1 x2 m32_vec l00 l01 l10 l11 l20 l21].
    + eapply is_derive_eq; [ | exact G1]. req. rewrite S1, S2. field. split; assumption.
    + eapply is_derive_eq; [ | exact G2]. req. rewrite S1, S2. field. split; assumption.
    + eapply is_derive_eq; [ | exact DZ]. req. rewrite S1, S2. cbv zeta. field. repeat apply conj; assumption.
Qed.

(** Parameters. *)
Lemma omni_set_sync M v : omni_sync (omni_set M v).
Proof. split; [split; reflexivity | ]. split; reflexivity. Qed.
Lemma omni_step_sync M o : omni_sync (omni_step M o).
Proof. destruct o; (split; [split; reflexivity | ]; split; reflexivity). Qed.
Lemma list5 (v : list R) : length v = 5%nat -> v = [nth 0 v 0; nth 1 v 0; nth 2 v 0; nth 3 v 0; nth 4 v 0].
Proof. do 6 (destruct v as [ | ? v]; try discriminate). reflexivity. Qed.
Lemma pixel_set_derive (a b c d : R -> R) (g : R -> v2) t da db dc dd dg :
  is_derive a t da -> is_derive b t db -> is_derive c t dc -> is_derive d t dd -> v2_derive g t dg ->
  v2_derive (fun s => V2 (a s * u0 (g s) + c s) (b s * u1 (g s) + d s)) t
    (V2 (da * u0 (g t) + a t * u0 dg + dc) (db * u1 (g t) + b t * u1 dg + dd)).
Proof.
  intros HA HB HC HD (X & Y). split; cbn [u0 u1].
  - eapply is_derive_eq; [ | exact (is_derive_plus _ _ t _ _ (is_derive_mult _ _ t _ _ HA X Rmult_comm) HC)].
    req. unfold plus, mult; cbn. ring.
  - eapply is_derive_eq; [ | exact (is_derive_plus _ _ t _ _ (is_derive_mult _ _ t _ _ HB Y Rmult_comm) HD)].
    req. unfold plus, mult; cbn. ring.
Qed.
Lemma omni_intr_jacobian D M v p Jd cols : omni_valid (nth 0 v 0) p ->
  snd (distortJ D (omni_point (nth 0 v 0) p)) = Val Jd -> fst (distortJ D (omni_point (nth 0 v 0) p)) = distort D (omni_point (nth 0 v 0) p) ->
  jacobian (distort D) (omni_point (nth 0 v 0) p) Jd ->
  omni_intrJ D (omni_set M v) p = Val cols ->
  image_param_jacobian 5 (fun w => fst (omni_project D (omni_set M w) p)) v cols.
Proof.
  intros V ED EF HJ E. assert (Nd : x2 p + nth 0 v 0 * p_norm p <> 0) by (destruct V; lra).
  unfold omni_intrJ in E. cbn [omni_set make_omni xi] in E. destruct (Req_EM_T _ 0); [contradiction | ].
  change (V2 (x0 p * (1 / (x2 p + nth 0 v 0 * p_norm p))) (x1 p * (1 / (x2 p + nth 0 v 0 * p_norm p)))) with (omni_point (nth 0 v 0) p) in E.
  destruct (distortJ D (omni_point (nth 0 v 0) p)) as [kd Jr]. cbn [fst snd] in ED, EF. subst Jr kd. cbn [rbind oi fu fv make_intr] in E.
  match type of E with Val ?m = Val _ => assert (EC : cols = m) by congruence end. clear E. subst cols.
  split; [reflexivity | ]. intros q t dp Eq (L & H). rewrite (list5 dp L).
  assert (H0 := H 0%nat ltac:(lia)). assert (H1 := H 1%nat ltac:(lia)). assert (H2 := H 2%nat ltac:(lia)). assert (H3 := H 3%nat ltac:(lia)). assert (H4 := H 4%nat ltac:(lia)).
  assert (Q0 := Eq 0%nat ltac:(lia)). assert (Q1 := Eq 1%nat ltac:(lia)). assert (Q2 := Eq 2%nat ltac:(lia)).
  exists (fun s => to_pixel (oi (omni_set M (q s))) (distort D (omni_point (nth 0 (q s) 0) p))). split.
  { assert (C0 := derive_continuous _ _ _ H0). destruct V as (V1 & V2). rewrite <- Q0 in V1, V2.
    assert (C1 : continuous (fun s => x2 p + nth 0 (q s) 0 * p_norm p) t).
    { apply (continuous_plus (fun _ => x2 p)); [apply continuous_const | ]. apply (continuous_mult (fun s => nth 0 (q s) 0) (fun _ => p_norm p)); [exact C0 | apply continuous_const]. }
    assert (C2 : continuous (fun s => p_norm p + nth 0 (q s) 0 * x2 p) t).
    { apply (continuous_plus (fun _ => p_norm p)); [apply continuous_const | ]. apply (continuous_mult (fun s => nth 0 (q s) 0) (fun _ => x2 p)); [exact C0 | apply continuous_const]. }
    eapply filter_imp; [ | exact (filter_and _ _ (locally_gt _ t _ C1 V1) (locally_gt _ t _ C2 V2))]. cbv beta. intros s Hs.
    rewrite (omni_project_valid D (omni_set M (q s)) p (omni_set_sync M _) Hs). reflexivity. }
  assert (Nd' : x2 p + nth 0 (q t) 0 * p_norm p <> 0) by (rewrite Q0; exact Nd).
  assert (PD := omni_curve _ _ _ _ _ t _ _ _ _ _ (@is_derive_const R_AbsRing R_NormedModule (x0 p) t) (@is_derive_const R_AbsRing R_NormedModule (x1 p) t)
      (@is_derive_const R_AbsRing R_NormedModule (x2 p) t) (@is_derive_const R_AbsRing R_NormedModule (p_norm p) t) H0 Nd').
  cbv beta in PD. change (@zero R_NormedModule) with 0 in PD.
  assert (EQ : omni_point (nth 0 (q t) 0) p = omni_point (nth 0 v 0) p) by (rewrite Q0; reflexivity).
  assert (HH := HJ (fun s => omni_point (nth 0 (q s) 0) p) t _ EQ PD).
  unfold to_pixel. cbn [omni_set make_omni oi make_intr fu fv cu cv].
  eapply v2_derive_eq; [ | exact (pixel_set_derive _ _ _ _ _ t _ _ _ _ _ H1 H2 H3 H4 HH)].
  cbv beta. rewrite Q0, Q1, Q2. unfold combine_cols, v2_add, v2_scale, m2_vec. cbn [u0 u1 omni_point].
  generalize (distort D (omni_point (nth 0 v 0) p)). intros k.
  f_equal; field; exact Nd.
Qed.
Lemma omni_dist_jacobian n (DF : list R -> distortion) M v p cols : omni_sync M -> omni_valid (xi M) p ->
  (forall cs, paramJ (DF v) (omni_point (xi M) p) = Val cs -> parameter_jacobian n (fun w => distort (DF w) (omni_point (xi M) p)) v cs) ->
  omni_distJ (DF v) M p = Val cols ->
  image_param_jacobian n (fun w => fst (omni_project (DF w) M p)) v cols.
Proof.
  intros S V HP E. unfold omni_distJ in E. destruct (Req_EM_T _ 0); [discriminate | ].
  change (V2 (x0 p * (1 / (x2 p + xi M * p_norm p))) (x1 p * (1 / (x2 p + xi M * p_norm p)))) with (omni_point (xi M) p) in E.
  destruct (paramJ (DF v) (omni_point (xi M) p)) as [cs | | | ] eqn:EP; cbn [rbind] in E; try discriminate.
  assert (Ec : cols = map (fun c => V2 (fu (oi M) * u0 c) (fv (oi M) * u1 c)) cs) by congruence. subst cols.
  destruct (HP _ eq_refl) as (L & H). split; [rewrite map_length; exact L | ]. intros q t dp Eq Hq.
  exists (fun s => to_pixel (oi M) (distort (DF (q s)) (omni_point (xi M) p))). split.
  { apply filter_forall. intros s. rewrite (omni_project_valid _ M p S V). reflexivity. }
  rewrite combine_scaled. apply to_pixel_derive. exact (H q t dp Eq Hq).
Qed.

(** Resizing. *)
Lemma omni_resize_project D M s p m n : omni_sync M -> 0 < s -> IZR (ru (oi M)) * s = IZR m -> IZR (rv (oi M)) * s = IZR n ->
  omni_project D (omni_resize M s) p =
    (rbind (fst (omni_project D M p)) (fun k => Val (v2_scale s k)), snd (omni_project D M p)).
Proof.
  intros S P Em En. assert (S' : omni_sync (omni_resize M s)) by (split; [split; reflexivity | ]; split; reflexivity).
  assert (DE : omni_valid (xi M) p \/ ~ omni_valid (xi M) p).
  { unfold omni_valid. destruct (Rlt_dec 0 (x2 p + xi M * p_norm p)), (Rlt_dec 0 (p_norm p + xi M * x2 p)); tauto. }
  destruct DE as [V | V].
  - rewrite (omni_project_valid D M p S V), (omni_project_valid D (omni_resize M s) p S' V). cbn [rbind fst snd].
    change (xi (omni_resize M s)) with (xi M). set (y := distort D _).
    assert (EP : to_pixel (oi (omni_resize M s)) y = v2_scale s (to_pixel (oi M) y)).
    { unfold to_pixel, omni_resize, make_omni, pin_resize, make_intr, v2_scale. cbn [oi fu fv cu cv u0 u1]. f_equal; ring. }
    rewrite EP. f_equal. apply bool_eq_iff. rewrite !on_sensor_spec. unfold in_image, omni_resize, make_omni, pin_resize, make_intr, v2_scale.
    cbn [oi ru rv u0 u1]. rewrite Em, En, !trunc_int, <- Em, <- En. generalize (to_pixel (oi M) y). intros k.
    split; intros (A & B); (split; [split; [nra | ] | split; [nra | ]]); try nra.
  - rewrite (omni_project_invalid D M p S V), (omni_project_invalid D (omni_resize M s) p S' V). reflexivity.
Qed.
