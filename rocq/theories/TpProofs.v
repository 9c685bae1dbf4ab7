(** * Lemmas about the alignment of point sets *)
From Coq Require Import Reals Lra List Psatz.
From Verif Require Import KinModel KinSpec KinProofs TpModel TpSpec.
Import ListNotations.
Local Open Scope R_scope.

Definition m3_neg (A : m3) : m3 := m3_scale (-1) A.
Definition frob (A B : m3) : R :=
  m00 A * m00 B + m01 A * m01 B + m02 A * m02 B + m10 A * m10 B + m11 A * m11 B + m12 A * m12 B +
  m20 A * m20 B + m21 A * m21 B + m22 A * m22 B.

Ltac kr := intros; kdestruct; unfold frob, sqdist, diag3, diag4, m3_neg, negate_col2 in *; kunf; try ring.
Lemma m3_eq A B : m00 A = m00 B -> m01 A = m01 B -> m02 A = m02 B -> m10 A = m10 B -> m11 A = m11 B -> m12 A = m12 B ->
  m20 A = m20 B -> m21 A = m21 B -> m22 A = m22 B -> A = B.
Proof. destruct A, B; cbn; intros; congruence. Qed.

(** ** Traces over rotations *)
Lemma trace_rotation s C : SO3 C -> x0 s >= x1 s -> x1 s >= x2 s -> x2 s >= 0 ->
  frob (diag3 s) C <= x0 s + x1 s + x2 s.
Proof.
  intros S A1 A2 A3. destruct (r2quat_raw_spec C S) as [U E]. rewrite <- E.
  destruct (r2quat_raw C) as [a b c d]. destruct s as [s0 s1 s2]. unfold unit4, frob, diag3 in *. kunf. kunf in U. cbn in A1, A2, A3, U.
  assert (E2 : d * d = 1 - a * a - b * b - c * c) by lra. 
  pose proof (Rle_0_sqr a) as Pa. pose proof (Rle_0_sqr b) as Pb. pose proof (Rle_0_sqr c) as Pc. unfold Rsqr in Pa, Pb, Pc.
  assert (0 <= (s1 + s2) * (a * a)) by (apply Rmult_le_pos; lra).
  assert (0 <= (s0 + s2) * (b * b)) by (apply Rmult_le_pos; lra).
  assert (0 <= (s0 + s1) * (c * c)) by (apply Rmult_le_pos; lra).
  rewrite E2. lra.
Qed.
Lemma trace_reflection s C : SO3 (m3_neg C) -> x0 s >= x1 s -> x1 s >= x2 s -> x2 s >= 0 ->
  frob (diag3 s) C <= x0 s + x1 s - x2 s.
Proof.
  intros S A1 A2 A3. destruct (r2quat_raw_spec _ S) as [U E].
  replace C with (m3_neg (m3_neg C)) by (apply m3_eq; kr). rewrite <- E.
  destruct (r2quat_raw (m3_neg C)) as [a b c d]. destruct s as [s0 s1 s2]. unfold unit4, frob, diag3, m3_neg in *. kunf. kunf in U. cbn in A1, A2, A3, U.
  assert (E2 : c * c = 1 - a * a - b * b - d * d) by lra.
  pose proof (Rle_0_sqr a) as Pa. pose proof (Rle_0_sqr b) as Pb. pose proof (Rle_0_sqr d) as Pd. unfold Rsqr in Pa, Pb, Pd.
  assert (0 <= (s0 - s2) * (a * a)) by (apply Rmult_le_pos; lra).
  assert (0 <= (s1 - s2) * (b * b)) by (apply Rmult_le_pos; lra).
  assert (0 <= (s0 + s1) * (d * d)) by (apply Rmult_le_pos; lra).
  rewrite E2. lra.
Qed.

Lemma ortho_det A : orthogonal3 A -> m3_det A = 1 \/ m3_det A = -1.
Proof.
  intros [E _]. assert (D : m3_det A * m3_det A = 1).
  { rewrite <- (m3_det_tr A) at 2. rewrite <- m3_det_mul, E. kr. }
  assert (F : (m3_det A - 1) * (m3_det A + 1) = 0) by lra. apply Rmult_integral in F. destruct F; [ left | right ]; lra.
Qed.
Lemma ortho_tr A : orthogonal3 A -> orthogonal3 (m3_tr A).
Proof. intros [E F]. split; rewrite m3_tr_tr; assumption. Qed.
Lemma ortho_mul A B : orthogonal3 A -> orthogonal3 B -> orthogonal3 (m3_mul A B).
Proof.
  intros [A1 A2] [B1 B2]. split; rewrite m3_tr_mul.
  - rewrite <- m3_mul_assoc, (m3_mul_assoc B), B1, m3_mul_I_l. exact A1.
  - rewrite <- m3_mul_assoc, (m3_mul_assoc (m3_tr A)), A2, m3_mul_I_l. exact B2.
Qed.
Lemma SO3_ortho C : SO3 C -> orthogonal3 C.
Proof. intros S. split; [ apply S | apply SO3_tr_l; exact S ]. Qed.
Lemma ortho_SO3 A : orthogonal3 A -> m3_det A = 1 -> SO3 A.
Proof. intros [E _] D. split; assumption. Qed.
Lemma det_neg A : m3_det (m3_neg A) = - m3_det A.
Proof. kr. Qed.
Lemma ortho_neg A : orthogonal3 A -> orthogonal3 (m3_neg A).
Proof.
  intros [E F]. split.
  - rewrite <- E. apply m3_eq; kr.
  - rewrite <- F. apply m3_eq; kr.
Qed.

(** The correlation of a rotation with a matrix, seen through its singular vectors. *)
Lemma frob_svd U s V C : frob C (m3_mul U (m3_mul (diag3 s) (m3_tr V))) = frob (diag3 s) (m3_mul (m3_tr U) (m3_mul C V)).
Proof. kr. Qed.

Definition flip : m3 := M3 1 0 0 0 1 0 0 0 (-1).
Lemma negate_flip V : negate_col2 V = m3_mul V flip.
Proof. unfold flip. apply m3_eq; kr. Qed.
Lemma flip_ortho : orthogonal3 flip.
Proof. unfold flip. split; apply m3_eq; kunf; ring. Qed.

(** The rotation chosen by the code. *)
Definition chosen (U V : m3) : m3 :=
  m3_tr (if ltb (m3_det (m3_mul V (m3_tr U))) 0 then m3_mul (negate_col2 V) (m3_tr U) else m3_mul V (m3_tr U)).
Lemma chosen_best U s V H C : is_svd H (U, s, V) -> SO3 C -> SO3 (chosen U V) /\ frob C H <= frob (chosen U V) H.
Proof.
  intros (OU & OV & EH & S1 & S2 & S3) SC. unfold chosen.
  pose proof (ortho_mul _ _ OV (ortho_tr _ OU)) as OR. rewrite EH. rewrite !frob_svd.
  assert (OM : orthogonal3 (m3_mul (m3_tr U) (m3_mul C V))) by (apply ortho_mul; [ apply ortho_tr; exact OU | apply ortho_mul; [ apply SO3_ortho; exact SC | exact OV ] ]).
  assert (DM : m3_det (m3_mul (m3_tr U) (m3_mul C V)) = m3_det (m3_mul V (m3_tr U))).
  { rewrite !m3_det_mul, m3_det_tr. destruct SC as [_ D]. rewrite D. ring. }
  destruct (ltb_spec (m3_det (m3_mul V (m3_tr U))) 0) as [L | L].
  - assert (D : m3_det (m3_mul V (m3_tr U)) = -1) by (destruct (ortho_det _ OR); lra). rewrite D in DM.
    assert (OR' : orthogonal3 (m3_mul (negate_col2 V) (m3_tr U))).
    { apply ortho_mul; [ | apply ortho_tr; exact OU ]. rewrite negate_flip. apply ortho_mul; [ exact OV | exact flip_ortho ]. }
    split.
    + apply ortho_SO3; [ apply ortho_tr; exact OR' | ]. rewrite m3_det_tr, negate_flip, !m3_det_mul. rewrite m3_det_mul in D.
      replace (m3_det flip) with (-1) by (unfold flip; kunf; ring). lra.
    + assert (E : m3_mul (m3_tr U) (m3_mul (m3_tr (m3_mul (negate_col2 V) (m3_tr U))) V) = flip).
      { rewrite m3_tr_mul, m3_tr_tr, negate_flip, m3_tr_mul. destruct OU as [_ U2]. destruct OV as [_ V2].
        rewrite !m3_mul_assoc, U2, m3_mul_I_l. rewrite <- m3_mul_assoc, V2, m3_mul_I_r. unfold flip. apply m3_eq; kunf; ring. }
      rewrite E. eapply Rle_trans; [ apply trace_reflection; [ | exact S1 | exact S2 | exact S3 ] | ].
      * apply ortho_SO3; [ apply ortho_neg; exact OM | rewrite det_neg, DM; ring ].
      * apply Req_le. destruct s. unfold flip. kr.
  - assert (D : m3_det (m3_mul V (m3_tr U)) = 1) by (destruct (ortho_det _ OR); lra). rewrite D in DM. split.
    + apply ortho_SO3; [ apply ortho_tr; exact OR | rewrite m3_det_tr; exact D ].
    + assert (E : m3_mul (m3_tr U) (m3_mul (m3_tr (m3_mul V (m3_tr U))) V) = m3_I).
      { rewrite m3_tr_mul, m3_tr_tr. destruct OU as [_ U2]. destruct OV as [_ V2]. rewrite !m3_mul_assoc, U2, m3_mul_I_l. exact V2. }
      rewrite E. eapply Rle_trans; [ apply trace_rotation; [ | exact S1 | exact S2 | exact S3 ] | ].
      * apply ortho_SO3; assumption.
      * apply Req_le. destruct s. kr.
Qed.

(** ** The misfit in terms of the scatter *)
Lemma m3_add_assoc A B C : m3_add A (m3_add B C) = m3_add (m3_add A B) C.
Proof. apply m3_eq; kr. Qed.
Lemma accumulate_scatter c0 c1 l : forall H, accumulate c0 c1 l H = m3_add H (scatter c0 c1 l).
Proof.
  induction l as [ | [a b] l IH ]; intros H; cbn [accumulate scatter fold_right].
  - apply m3_eq; kr.
  - rewrite IH. cbn [fst snd]. rewrite <- m3_add_assoc. reflexivity.
Qed.

(** The spread of the points about any two centres. *)
Definition spreads (c0 c1 : v3) (l : pairs) : R :=
  fold_right (fun p r => sqdist (fst p) c0 + sqdist (snd p) c1 + r) 0 l.
Definition dev (c : v3) (l : list v3) : v3 := fold_right (fun p r => v3_add (v3_sub p c) r) v3_zero l.
Lemma dev_sum c l : dev c l = v3_sub (fold_right v3_add v3_zero l) (v3_scale (INR (length l)) c).
Proof.
  induction l as [ | a l IH ]; [ destruct c; cbn; kunf; f_equal; ring | ].
  change (length (a :: l)) with (S (length l)). rewrite S_INR.
  change (dev c (a :: l)) with (v3_add (v3_sub a c) (dev c l)). change (fold_right v3_add v3_zero (a :: l)) with (v3_add a (fold_right v3_add v3_zero l)).
  rewrite IH. set (n := INR (length l)). destruct (fold_right v3_add v3_zero l), a, c. kunf. f_equal; ring.
Qed.
Lemma dev_centroid c l : centroid l c -> dev c l = v3_zero.
Proof. unfold centroid. intros E. rewrite dev_sum, E. destruct (fold_right v3_add v3_zero l). kunf. f_equal; ring. Qed.

Lemma rot_sqdist C b c : SO3 C -> v3_dot (m3_vec C (v3_sub b c)) (m3_vec C (v3_sub b c)) = sqdist b c.
Proof. intros S. apply (SO3_dot C S). Qed.

Lemma sqdist_split C t c0 c1 a b : SO3 C ->
  sqdist a (v3_add (m3_vec C b) t) =
  sqdist a c0 + sqdist b c1 - 2 * frob C (m3_outer (v3_sub a c0) (v3_sub b c1)) +
  2 * v3_dot (v3_sub (v3_sub a c0) (m3_vec C (v3_sub b c1))) (v3_sub (v3_sub c0 (m3_vec C c1)) t) +
  sqdist (v3_sub c0 (m3_vec C c1)) t.
Proof. intros S. rewrite <- (rot_sqdist C b c1 S). clear S. kr. Qed.

Lemma misfit_split C t c0 c1 l : SO3 C ->
  misfit C t l = spreads c0 c1 l - 2 * frob C (scatter c0 c1 l) +
  2 * v3_dot (v3_sub (dev c0 (map fst l)) (m3_vec C (dev c1 (map snd l)))) (v3_sub (v3_sub c0 (m3_vec C c1)) t) +
  INR (length l) * sqdist (v3_sub c0 (m3_vec C c1)) t.
Proof.
  intros S. induction l as [ | [a b] l IH ].
  - unfold misfit, spreads, scatter, dev. cbn [fold_right map length INR]. kr.
  - change (length ((a, b) :: l)) with (Datatypes.S (length l)). rewrite S_INR.
    change (misfit C t ((a, b) :: l)) with (sqdist a (v3_add (m3_vec C b) t) + misfit C t l). rewrite IH, (sqdist_split C t c0 c1 a b S).
    change (spreads c0 c1 ((a, b) :: l)) with (sqdist a c0 + sqdist b c1 + spreads c0 c1 l).
    change (scatter c0 c1 ((a, b) :: l)) with (m3_add (m3_outer (v3_sub a c0) (v3_sub b c1)) (scatter c0 c1 l)).
    change (dev c0 (map fst ((a, b) :: l))) with (v3_add (v3_sub a c0) (dev c0 (map fst l))).
    change (dev c1 (map snd ((a, b) :: l))) with (v3_add (v3_sub b c1) (dev c1 (map snd l))).
    set (n := INR (length l)). set (sp := spreads c0 c1 l). clear IH S.
    destruct (scatter c0 c1 l), (dev c0 (map fst l)), (dev c1 (map snd l)). kr.
Qed.
Lemma misfit_centred C t c0 c1 l : SO3 C -> centroid (map fst l) c0 -> centroid (map snd l) c1 ->
  misfit C t l = spreads c0 c1 l - 2 * frob C (scatter c0 c1 l) + INR (length l) * sqdist (v3_sub c0 (m3_vec C c1)) t.
Proof.
  intros S E0 E1. rewrite (misfit_split C t c0 c1 l S), (dev_centroid _ _ E0), (dev_centroid _ _ E1).
  set (n := INR (length l)). set (sp := spreads c0 c1 l). clear. destruct (scatter c0 c1 l). kr.
Qed.
Lemma sqdist_pos a b : 0 <= sqdist a b.
Proof. destruct a as [u0 u1 u2], b as [w0 w1 w2]. unfold sqdist. kunf. pose proof (Rle_0_sqr (u0 - w0)). pose proof (Rle_0_sqr (u1 - w1)). pose proof (Rle_0_sqr (u2 - w2)). unfold Rsqr in *. lra. Qed.
Lemma sqdist_refl a : sqdist a a = 0.
Proof. kr. Qed.

Lemma mean_centroid l : l <> [] -> centroid l (mean l).
Proof.
  intros N. unfold centroid, mean, sum3. assert (P : INR (length l) <> 0) by (destruct l; [ contradiction | apply not_0_INR; discriminate ]).
  set (n := INR (length l)) in *. destruct (fold_right v3_add v3_zero l). kunf. f_equal; field; exact P.
Qed.
Lemma centroid_unique l c d : l <> [] -> centroid l c -> centroid l d -> c = d.
Proof.
  intros N A B. unfold centroid in *. rewrite <- B in A. assert (P : INR (length l) <> 0) by (destruct l; [ contradiction | apply not_0_INR; discriminate ]).
  set (n := INR (length l)) in *. destruct c as [c0 c1 c2], d as [d0 d1 d2]. unfold v3_scale in A. cbn in A. injection A as A0 A1 A2.
  f_equal; eapply Rmult_eq_reg_l; eassumption.
Qed.

Lemma three_point_chosen svd l c0 c1 : l <> [] -> centroid (map fst l) c0 -> centroid (map snd l) c1 ->
  three_point svd l =
  (let '(U, _, V) := svd (scatter c0 c1 l) in rigid (chosen U V) (v3_sub c0 (m3_vec (chosen U V) c1))).
Proof.
  intros N E0 E1. assert (N0 : map fst l <> []) by (destruct l; [ contradiction | discriminate ]). assert (N1 : map snd l <> []) by (destruct l; [ contradiction | discriminate ]).
  rewrite (centroid_unique _ _ _ N0 E0 (mean_centroid _ N0)), (centroid_unique _ _ _ N1 E1 (mean_centroid _ N1)).
  unfold three_point. rewrite accumulate_scatter.
  replace (m3_add m3_zero (scatter (mean (map fst l)) (mean (map snd l)) l)) with (scatter (mean (map fst l)) (mean (map snd l)) l) by (apply m3_eq; kr).
  destruct (svd _) as [[U s] V]. reflexivity.
Qed.

(** Rigid motions that agree on three points off a line are equal. *)
Lemma SO3_cross C a b : SO3 C -> m3_vec C (v3_cross a b) = v3_cross (m3_vec C a) (m3_vec C b).
Proof.
  intros S. assert (F : m3_adj (m3_tr C) = C) by (rewrite (SO3_adj _ (SO3_tr _ S)); apply m3_tr_tr).
  rewrite <- F at 1. clear. destruct C, a, b. unfold m3_adj. kunf. f_equal; ring.
Qed.
Lemma basis a b v : let n := v3_cross a b in
  v3_scale (v3_dot n n) v =
  v3_add (v3_add (v3_scale (v3_dot v (v3_cross b n)) a) (v3_scale (v3_dot v (v3_cross n a)) b)) (v3_scale (v3_dot v n) n).
Proof. cbv zeta. destruct a, b, v. kunf. f_equal; ring. Qed.
Lemma m3_vec_add C a b : m3_vec C (v3_add a b) = v3_add (m3_vec C a) (m3_vec C b).
Proof. destruct C, a, b. kunf. f_equal; ring. Qed.
Lemma m3_vec_scale C s a : m3_vec C (v3_scale s a) = v3_scale s (m3_vec C a).
Proof. destruct C, a. kunf. f_equal; ring. Qed.
Lemma v3_scale_inj s a b : s <> 0 -> v3_scale s a = v3_scale s b -> a = b.
Proof.
  intros N E. destruct a as [a0 a1 a2], b as [b0 b1 b2]. unfold v3_scale in E. cbn in E. injection E as A0 A1 A2.
  f_equal; eapply Rmult_eq_reg_l; eassumption.
Qed.
Lemma dot_self_zero n : v3_dot n n = 0 -> n = v3_zero.
Proof.
  destruct n as [a b c]. unfold v3_dot, v3_zero. cbn. intros E. pose proof (Rle_0_sqr a) as A. pose proof (Rle_0_sqr b) as B. pose proof (Rle_0_sqr c) as D. unfold Rsqr in *.
  assert (a * a = 0) by lra. assert (b * b = 0) by lra. assert (c * c = 0) by lra.
  f_equal; match goal with H : ?x * ?x = 0 |- ?x = 0 => apply Rmult_integral in H; destruct H; assumption end.
Qed.
Lemma rigid_unique C t C' t' a b c : SO3 C -> SO3 C' -> spread a b c ->
  v3_add (m3_vec C a) t = v3_add (m3_vec C' a) t' -> v3_add (m3_vec C b) t = v3_add (m3_vec C' b) t' ->
  v3_add (m3_vec C c) t = v3_add (m3_vec C' c) t' -> C = C' /\ t = t'.
Proof.
  intros S S' N Ea Eb Ec. assert (D : forall p, v3_add (m3_vec C p) t = v3_add (m3_vec C' p) t' -> m3_vec C (v3_sub p a) = m3_vec C' (v3_sub p a)).
  { intros p E. assert (L : forall A u, m3_vec A (v3_sub p a) = v3_sub (v3_add (m3_vec A p) u) (v3_add (m3_vec A a) u)) by (intros A u; destruct A, u, p, a; kunf; f_equal; ring).
    rewrite (L C t), (L C' t'), E, Ea. reflexivity. }
  pose proof (D b Eb) as Db. pose proof (D c Ec) as Dc. set (d1 := v3_sub b a) in *. set (d2 := v3_sub c a) in *.
  assert (Dn : m3_vec C (v3_cross d1 d2) = m3_vec C' (v3_cross d1 d2)) by (rewrite (SO3_cross _ _ _ S), (SO3_cross _ _ _ S'), Db, Dc; reflexivity).
  assert (NN : v3_dot (v3_cross d1 d2) (v3_cross d1 d2) <> 0) by (intros Z; apply N; apply dot_self_zero; exact Z).
  assert (CC : C = C').
  { apply m3_ext. intros v. apply (v3_scale_inj _ _ _ NN). rewrite <- !m3_vec_scale, basis, !m3_vec_add, !m3_vec_scale, Db, Dc, Dn. reflexivity. }
  split; [ exact CC | ]. subst C'. clear - Ea. destruct (m3_vec C a) as [p0 p1 p2], t as [t0 t1 t2], t' as [u0 u1 u2]. unfold v3_add in Ea. cbn in Ea.
  injection Ea as A0 A1 A2. f_equal; lra.
Qed.
Lemma misfit_zero C t l : misfit C t l = 0 -> forall a b, In (a, b) l -> a = v3_add (m3_vec C b) t.
Proof.
  assert (P : forall l, 0 <= misfit C t l).
  { clear. induction l as [ | p l IH ]; [ cbn; lra | ]. change (0 <= sqdist (fst p) (v3_add (m3_vec C (snd p)) t) + misfit C t l). pose proof (sqdist_pos (fst p) (v3_add (m3_vec C (snd p)) t)). lra. }
  induction l as [ | p l IH ]; intros E a b I; [ destruct I | ].
  change (sqdist (fst p) (v3_add (m3_vec C (snd p)) t) + misfit C t l = 0) in E.
  pose proof (P l). pose proof (sqdist_pos (fst p) (v3_add (m3_vec C (snd p)) t)). destruct I as [ -> | I ]; [ | apply IH; [ lra | exact I ] ].
  cbn [fst snd] in *. assert (Z : sqdist a (v3_add (m3_vec C b) t) = 0) by lra. apply dot_self_zero in Z.
  destruct (v3_add (m3_vec C b) t) as [u0 u1 u2], a as [a0 a1 a2]. unfold v3_sub, v3_zero in Z. cbn in Z. injection Z as Z0 Z1 Z2. f_equal; lra.
Qed.
Lemma misfit_exact C t l : (forall a b, In (a, b) l -> a = v3_add (m3_vec C b) t) -> misfit C t l = 0.
Proof.
  induction l as [ | [a b] l IH ]; intros E; [ reflexivity | ].
  change (sqdist a (v3_add (m3_vec C b) t) + misfit C t l = 0). rewrite IH by (intros; apply E; right; assumption).
  rewrite <- (E a b (or_introl eq_refl)), sqdist_refl. lra.
Qed.

(** ** Davenport's method *)
Lemma davenport_form B q : v4_dot q (m4_vec (davenport B) q) = frob (quat2r q) B.
Proof. destruct B, q. unfold davenport, frob. kunf. ring. Qed.
Lemma davenport_sym B : m4_tr (davenport B) = davenport B.
Proof. destruct B. unfold davenport. kunf. f_equal; f_equal; ring. Qed.
Lemma profile_correlation C l : Forall (fun p => 0 <= fst p) l -> frob C (profile l) = correlation C l.
Proof.
  induction 1 as [ | [w [a b]] l W F IH ]; [ unfold profile, correlation; cbn [fold_right]; kr | ].
  change (profile ((w, (a, b)) :: l)) with (m3_add (m3_outer (v3_scale (sqrt w) a) (v3_scale (sqrt w) b)) (profile l)).
  change (correlation C ((w, (a, b)) :: l)) with (w * v3_dot a (m3_vec C b) + correlation C l). rewrite <- IH. cbn [fst] in W.
  replace (w * v3_dot a (m3_vec C b)) with (sqrt w * sqrt w * v3_dot a (m3_vec C b)) by (rewrite sqrt_sqrt by exact W; reflexivity).
  clear. destruct (profile l). kr.
Qed.
Lemma davenport_ok l : Forall (fun p => 0 <= fst p) l -> is_davenport l (davenport (profile l)).
Proof. intros F. split; [ apply davenport_sym | intros q; rewrite davenport_form; apply profile_correlation; exact F ]. Qed.

Definition wspreads (l : weighted_pairs) : R :=
  fold_right (fun p r => fst p * (v3_dot (fst (snd p)) (fst (snd p)) + v3_dot (snd (snd p)) (snd (snd p))) + r) 0 l.
Lemma wmisfit_split C l : SO3 C -> wmisfit C l = wspreads l - 2 * correlation C l.
Proof.
  intros S. induction l as [ | [w [a b]] l IH ]; [ cbn; lra | ].
  change (wmisfit C ((w, (a, b)) :: l)) with (w * sqdist a (m3_vec C b) + wmisfit C l).
  change (wspreads ((w, (a, b)) :: l)) with (w * (v3_dot a a + v3_dot b b) + wspreads l).
  change (correlation C ((w, (a, b)) :: l)) with (w * v3_dot a (m3_vec C b) + correlation C l). rewrite IH, <- (SO3_dot C S b b).
  destruct (m3_vec C b), a. unfold sqdist. kunf. ring.
Qed.

Lemma form_cols e V q :
  v4_dot q (m4_vec (m4_mul V (m4_mul (diag4 e) (m4_tr V))) q) =
  q0 e * (v4_dot (col4 V 0) q * v4_dot (col4 V 0) q) + q1 e * (v4_dot (col4 V 1) q * v4_dot (col4 V 1) q) +
  q2 e * (v4_dot (col4 V 2) q * v4_dot (col4 V 2) q) + q3 e * (v4_dot (col4 V 3) q * v4_dot (col4 V 3) q).
Proof. destruct V as [[? ? ? ?] [? ? ? ?] [? ? ? ?] [? ? ? ?]], e, q. unfold diag4, col4, entry4. kunf. ring. Qed.
Lemma norm_cols V q : orthogonal4 V ->
  v4_dot (col4 V 0) q * v4_dot (col4 V 0) q + v4_dot (col4 V 1) q * v4_dot (col4 V 1) q +
  v4_dot (col4 V 2) q * v4_dot (col4 V 2) q + v4_dot (col4 V 3) q * v4_dot (col4 V 3) q = v4_dot q q.
Proof.
  intros [E _]. transitivity (v4_dot q (m4_vec (m4_mul V (m4_tr V)) q)).
  - destruct V as [[? ? ? ?] [? ? ? ?] [? ? ? ?] [? ? ? ?]], q. unfold col4, entry4. kunf. ring.
  - rewrite E. destruct q. kunf. ring.
Qed.
Lemma cols_orthonormal V i j : orthogonal4 V -> (i < 4)%nat -> (j < 4)%nat ->
  v4_dot (col4 V i) (col4 V j) = if Nat.eqb i j then 1 else 0.
Proof.
  intros [_ E] I J.
  assert (X : v4_dot (col4 V i) (col4 V j) = entry4 (match i with O => r40 | 1%nat => r41 | 2%nat => r42 | _ => r43 end (m4_mul (m4_tr V) V)) j).
  { do 4 (destruct i as [ | i ]; [ do 4 (destruct j as [ | j ]; [ destruct V as [[? ? ? ?] [? ? ? ?] [? ? ? ?] [? ? ? ?]]; unfold col4, entry4; kunf; ring | ]); exfalso; inversion J as [ | ? J1 ]; inversion J1 as [ | ? J2 ]; inversion J2 as [ | ? J3 ]; inversion J3 as [ | ? J4 ]; inversion J4 | ]).
    exfalso; inversion I as [ | ? J1 ]; inversion J1 as [ | ? J2 ]; inversion J2 as [ | ? J3 ]; inversion J3 as [ | ? J4 ]; inversion J4. }
  rewrite X, E. clear X E.
  do 4 (destruct i as [ | i ]; [ do 4 (destruct j as [ | j ]; [ reflexivity | ]); exfalso; inversion J as [ | ? J1 ]; inversion J1 as [ | ? J2 ]; inversion J2 as [ | ? J3 ]; inversion J3 as [ | ? J4 ]; inversion J4 | ]).
  exfalso; inversion I as [ | ? J1 ]; inversion J1 as [ | ? J2 ]; inversion J2 as [ | ? J3 ]; inversion J3 as [ | ? J4 ]; inversion J4.
Qed.
Lemma largest_spec e : let m := largest e [1; 2; 3]%nat 0%nat in
  (m < 4)%nat /\ q0 e <= entry4 e m /\ q1 e <= entry4 e m /\ q2 e <= entry4 e m /\ q3 e <= entry4 e m.
Proof.
  destruct e as [a b c d]. cbn [largest entry4 q0 q1 q2 q3].
  destruct (ltb_spec a b); cbn [entry4 q0 q1 q2 q3];
  [ destruct (ltb_spec b c); cbn [entry4 q0 q1 q2 q3]; [ destruct (ltb_spec c d) | destruct (ltb_spec b d) ]
  | destruct (ltb_spec a c); cbn [entry4 q0 q1 q2 q3]; [ destruct (ltb_spec c d) | destruct (ltb_spec a d) ] ];
  cbn [entry4 q0 q1 q2 q3]; (split; [ repeat constructor | split; [ lra | split; [ lra | split; lra ] ] ]).
Qed.
Lemma code_matrix q : 
  m3_sub (m3_add (m3_scale (q3 q * q3 q - v3_dot (V3 (q0 q) (q1 q) (q2 q)) (V3 (q0 q) (q1 q) (q2 q))) m3_I) (m3_scale 2 (m3_outer (V3 (q0 q) (q1 q) (q2 q)) (V3 (q0 q) (q1 q) (q2 q)))))
         (m3_scale (2 * q3 q) (crossMx (V3 (q0 q) (q1 q) (q2 q)))) = quat2r q.
Proof. destruct q. apply m3_eq; kunf; ring. Qed.

Lemma best_quaternion K e V q : is_eig K (e, V) -> unit4 q ->
  let m := largest e [1; 2; 3]%nat 0%nat in
  v4_dot (col4 V m) (col4 V m) = 1 /\ v4_dot q (m4_vec K q) <= v4_dot (col4 V m) (m4_vec K (col4 V m)).
Proof.
  intros [O E] U m. cbn [fst snd] in O, E. destruct (largest_spec e) as (M & A0 & A1 & A2 & A3). fold m in M, A0, A1, A2, A3.
  split. { rewrite (cols_orthonormal V m m O M M), PeanoNat.Nat.eqb_refl. reflexivity. }
  rewrite E, !form_cols. pose proof (norm_cols V q O) as NQ. rewrite (proj1 (unit4_dot q) U) in NQ.
  assert (B : q0 e * (v4_dot (col4 V 0) (col4 V m) * v4_dot (col4 V 0) (col4 V m)) + q1 e * (v4_dot (col4 V 1) (col4 V m) * v4_dot (col4 V 1) (col4 V m)) +
              q2 e * (v4_dot (col4 V 2) (col4 V m) * v4_dot (col4 V 2) (col4 V m)) + q3 e * (v4_dot (col4 V 3) (col4 V m) * v4_dot (col4 V 3) (col4 V m)) = entry4 e m).
  { rewrite !(fun i H => cols_orthonormal V i m O H M) by (repeat constructor). clear - M. do 4 (destruct m as [ | m ]; [ cbn; ring | ]).
    exfalso; inversion M as [ | ? J1 ]; inversion J1 as [ | ? J2 ]; inversion J2 as [ | ? J3 ]; inversion J3 as [ | ? J4 ]; inversion J4. }
  rewrite B. set (c0 := v4_dot (col4 V 0) q) in *. set (c1 := v4_dot (col4 V 1) q) in *. set (c2 := v4_dot (col4 V 2) q) in *. set (c3 := v4_dot (col4 V 3) q) in *.
  set (x := entry4 e m) in *. pose proof (Rle_0_sqr c0) as P0. pose proof (Rle_0_sqr c1) as P1. pose proof (Rle_0_sqr c2) as P2. pose proof (Rle_0_sqr c3) as P3. unfold Rsqr in *.
  assert (0 <= (x - q0 e) * (c0 * c0)) by (apply Rmult_le_pos; lra). assert (0 <= (x - q1 e) * (c1 * c1)) by (apply Rmult_le_pos; lra).
  assert (0 <= (x - q2 e) * (c2 * c2)) by (apply Rmult_le_pos; lra). assert (0 <= (x - q3 e) * (c3 * c3)) by (apply Rmult_le_pos; lra).
  replace x with (x * (c0 * c0 + c1 * c1 + c2 * c2 + c3 * c3)) by (rewrite NQ; ring). lra.
Qed.
Lemma unit_scale q : v4_dot q q = 1 -> v4_scale (/ v4_norm q) q = q.
Proof. intros E. unfold v4_norm. rewrite E, sqrt_1, Rinv_1. destruct q. kunf. f_equal; ring. Qed.
