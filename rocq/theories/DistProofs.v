(** * Proofs about the lens distortions *)

From Coquelicot Require Import Coquelicot.
From Coq Require Import Reals List Psatz.
From Verif Require Import KinModel KinSpec KinProofs KinExp KinCurve DistModel DistSpec.
Import ListNotations.
Local Open Scope R_scope.

Ltac req := match goal with |- @eq _ ?l ?r => change (@eq R l r) end; cbv beta.
Ltac dunf := cbv [v2_add v2_sub v2_scale v2_dot m2_I m2_scale m2_vec m2_tr m2_mul m2_det] in *;
  cbn [u0 u1 n00 n01 n10 n11] in *.

Lemma v2_derive_ext_loc f g t d : locally t (fun s => f s = g s) -> v2_derive f t d -> v2_derive g t d.
Proof.
  intros H (A & B). split; (eapply is_derive_ext_loc; [ | eassumption]);
    (eapply filter_imp; [ | exact H]); intros s ->; reflexivity.
Qed.
Lemma v2_derive_ext f g t d : (forall s, f s = g s) -> v2_derive f t d -> v2_derive g t d.
Proof. intros H. apply v2_derive_ext_loc. apply filter_forall. exact H. Qed.
Lemma v2_derive_eq f t d d' : d = d' -> v2_derive f t d -> v2_derive f t d'.
Proof. intros ->. exact (fun x => x). Qed.
Lemma v2_derive_unique f t d d' : v2_derive f t d -> v2_derive f t d' -> d = d'.
Proof.
  intros (A & B) (A' & B'). destruct d as [a b], d' as [a' b']. cbn [u0 u1] in *.
  f_equal; [rewrite <- (is_derive_unique _ _ _ A); exact (is_derive_unique _ _ _ A')
           | rewrite <- (is_derive_unique _ _ _ B); exact (is_derive_unique _ _ _ B')].
Qed.
Lemma v2_derive_const c t : v2_derive (fun _ => c) t (V2 0 0).
Proof. split; cbn [u0 u1]; apply @is_derive_const. Qed.
Lemma v2_derive_of (f g : R -> R) t a b : is_derive f t a -> is_derive g t b ->
  v2_derive (fun s => V2 (f s) (g s)) t (V2 a b).
Proof. intros A B. split; [exact A | exact B]. Qed.
Lemma is_derive_eq (f : R -> R) t d d' : d = d' -> is_derive f t d -> is_derive f t d'.
Proof. intros ->. exact (fun x => x). Qed.
Lemma radius2 y : radius y * radius y = u0 y * u0 y + u1 y * u1 y.
Proof. unfold radius. apply sqrt_sqrt. nra. Qed.
Lemma radius_pos y : 0 <= radius y.
Proof. apply sqrt_pos. Qed.
Lemma radius_norm y : v2_norm y = radius y.
Proof. reflexivity. Qed.

Lemma v2_eta p : V2 (u0 p) (u1 p) = p.
Proof. destruct p; reflexivity. Qed.

(** ** Radial-tangential *)
Lemma rt_scalar (k1 k2 p1 p2 : R) (x y : R -> R) (t dx dy : R) :
  is_derive x t dx -> is_derive y t dy ->
  v2_derive (fun s => rt_distort (RT k1 k2 p1 p2) (V2 (x s) (y s))) t
            (m2_vec (rt_J (RT k1 k2 p1 p2) (V2 (x t) (y t))) (V2 dx dy)).
Proof.
  intros A B. derive_ex A. derive_ex B. unfold rt_distort, rt_J, m2_vec. cbn [u0 u1 n00 n01 n10 n11 rk1 rk2 rp1 rp2].
  split; cbn [u0 u1]; auto_derive; try tauto; derive_sub A; derive_sub B; req; ring.
Qed.
Lemma rt_jacobian D y : jacobian (rt_distort D) y (rt_J D y).
Proof.
  intros c t d E (A & B). destruct D as [k1 k2 p1 p2], d as [dx dy]. subst y. cbn [u0 u1] in A, B.
  eapply v2_derive_ext; [ | eapply v2_derive_eq; [ | exact (rt_scalar k1 k2 p1 p2 _ _ t dx dy A B)]].
  - intros s. cbv beta. f_equal. apply v2_eta.
  - cbv beta. rewrite v2_eta. reflexivity.
Qed.

Lemma rt_param_scalar (y0 y1 : R) (k1 k2 p1 p2 : R -> R) (t a b c d : R) :
  is_derive k1 t a -> is_derive k2 t b -> is_derive p1 t c -> is_derive p2 t d ->
  v2_derive (fun s => rt_distort (RT (k1 s) (k2 s) (p1 s) (p2 s)) (V2 y0 y1)) t
            (combine_cols (rt_paramJ (V2 y0 y1)) [a; b; c; d]).
Proof.
  intros A B C D. derive_ex A. derive_ex B. derive_ex C. derive_ex D.
  unfold rt_distort, rt_paramJ, combine_cols, v2_add, v2_scale. cbn [u0 u1 rk1 rk2 rp1 rp2].
  split; cbn [u0 u1]; auto_derive; try tauto; derive_sub A; derive_sub B; derive_sub C; derive_sub D; req; ring.
Qed.
Lemma list4 (l : list R) : length l = 4%nat -> l = [nth 0 l 0; nth 1 l 0; nth 2 l 0; nth 3 l 0].
Proof. destruct l as [ | a [ | b [ | c [ | d [ | ]]]]]; try discriminate. reflexivity. Qed.
Lemma rt_param_jacobian p0 y : parameter_jacobian 4 (fun p => rt_distort (rt_set p) y) p0 (rt_paramJ y).
Proof.
  split; [reflexivity | ]. intros p t dp _ (L & H). rewrite (list4 dp L). destruct y as [y0 y1].
  apply (rt_param_scalar y0 y1 (fun s => nth 0 (p s) 0) (fun s => nth 1 (p s) 0) (fun s => nth 2 (p s) 0) (fun s => nth 3 (p s) 0));
    apply H; lia.
Qed.

Lemma det_gram F : m2_det (m2_mul (m2_tr F) F) = m2_det F * m2_det F.
Proof. destruct F. dunf. ring. Qed.
Lemma inverse_val A B : m2_inverse A = Val B -> m2_det A <> 0 /\ inverse_of A B.
Proof.
  unfold m2_inverse. destruct (Req_EM_T (m2_det A) 0) as [ | N]; [discriminate | ]. intros E.
  assert (E' : B = m2_scale (1 / m2_det A) (M2 (n11 A) (- n01 A) (- n10 A) (n00 A))) by congruence.
  split; [exact N | ]. rewrite E'. clear E E'. destruct A as [a b c d]. unfold inverse_of. dunf.
  split; f_equal; field; exact N.
Qed.
Lemma inverse_ok A : m2_det A <> 0 -> exists B, m2_inverse A = Val B.
Proof.
  intros N. unfold m2_inverse. destruct (Req_EM_T (m2_det A) 0); [contradiction | ]. eexists; reflexivity.
Qed.
Lemma inverse_none A : m2_det A = 0 -> m2_inverse A = NotFinite.
Proof. intros N. unfold m2_inverse. destruct (Req_EM_T (m2_det A) 0); [reflexivity | contradiction]. Qed.
Lemma m2_mul_assoc A B C : m2_mul A (m2_mul B C) = m2_mul (m2_mul A B) C.
Proof. destruct A, B, C. dunf. f_equal; ring. Qed.
Lemma m2_vec_mul A B v : m2_vec (m2_mul A B) v = m2_vec A (m2_vec B v).
Proof. destruct A, B, v. dunf. f_equal; ring. Qed.
Lemma m2_vec_I v : m2_vec m2_I v = v.
Proof. destruct v. dunf. f_equal; ring. Qed.
Lemma m2_mul_I_l A : m2_mul m2_I A = A.
Proof. destruct A. dunf. f_equal; ring. Qed.
Lemma m2_mul_I_r A : m2_mul A m2_I = A.
Proof. destruct A. dunf. f_equal; ring. Qed.

(** The Gauss-Newton step solves the linearised equation exactly. *)
Lemma gn_step F I e : m2_inverse (m2_mul (m2_tr F) F) = Val I ->
  m2_det F <> 0 /\ m2_vec F (m2_vec (m2_mul I (m2_tr F)) e) = e.
Proof.
  intros E. destruct (inverse_val _ _ E) as (N & _ & B). rewrite det_gram in N.
  assert (ND : m2_det F <> 0) by (intros Z; rewrite Z in N; lra).
  split; [exact ND | ]. destruct (inverse_ok F ND) as [G EG]. destruct (inverse_val _ _ EG) as (_ & GF & _).
  rewrite m2_mul_assoc in B.
  assert (X : m2_mul I (m2_tr F) = G).
  { rewrite <- (m2_mul_I_r (m2_mul I (m2_tr F))), <- GF, m2_mul_assoc, B. apply m2_mul_I_l. }
  rewrite X, <- m2_vec_mul, GF. apply m2_vec_I.
Qed.

Lemma ltb_spec a b : ltb a b = true <-> a < b.
Proof. unfold ltb. destruct (Rlt_dec a b); split; intros; try reflexivity; try assumption; try discriminate; contradiction. Qed.

(** A point whose image is [y] is a fixed point of the iteration. *)
Lemma rt_fixed n D y z : rt_distort D z = y -> m2_det (rt_J D z) <> 0 -> rt_iterate n D y z = Val z.
Proof.
  intros E N. induction n as [ | n IH]; [reflexivity | ]. cbn [rt_iterate].
  destruct (inverse_ok (m2_mul (m2_tr (rt_J D z)) (rt_J D z))) as [I EI]; [rewrite det_gram; nra | ].
  rewrite EI. cbn [rbind]. rewrite E.
  assert (Z : v2_add z (m2_vec (m2_mul I (m2_tr (rt_J D z))) (v2_sub y y)) = z).
  { generalize (m2_mul I (m2_tr (rt_J D z))). intros G. destruct y, z, G. dunf. f_equal; ring. }
  rewrite Z, IH. destruct (ltb _ _); reflexivity.
Qed.

(** What is known about a returned value: either the loop stopped early, and
    the result is one exact Newton step from a point whose image is within
    the tolerance, or all the rounds were used. *)
Lemma rt_iterate_result n D y z y' : rt_iterate n D y z = Val y' -> (0 < n)%nat ->
  exists zl du, y' = v2_add zl du /\ m2_vec (rt_J D zl) du = v2_sub y (rt_distort D zl) /\ m2_det (rt_J D zl) <> 0.
Proof.
  revert z. induction n as [ | n IH]; [lia | ]. intros z E _. cbn [rt_iterate] in E.
  destruct (m2_inverse (m2_mul (m2_tr (rt_J D z)) (rt_J D z))) as [I | | | ] eqn:EI; cbn [rbind] in E; try discriminate.
  destruct (gn_step _ _ (v2_sub y (rt_distort D z)) EI) as (N & G).
  destruct (ltb _ _).
  - exists z, (m2_vec (m2_mul I (m2_tr (rt_J D z))) (v2_sub y (rt_distort D z))). split; [congruence | ]. split; [exact G | exact N].
  - destruct n as [ | n].
    + cbn [rt_iterate] in E.
      exists z, (m2_vec (m2_mul I (m2_tr (rt_J D z))) (v2_sub y (rt_distort D z))). split; [congruence | ]. split; [exact G | exact N].
    + apply (IH _ E). lia.
Qed.

(** ** Inverse functions *)
Lemma inverse_derivative (f : v2 -> v2) (c : R -> v2) t dc J K y' :
  jacobian f y' J -> inverse_of J K ->
  forall g dg, g t = y' -> v2_derive g t dg -> v2_derive c t dc -> locally t (fun s => f (g s) = c s) ->
  dg = m2_vec K dc.
Proof.
  intros HJ (_ & KJ) g dg E Hg Hc L.
  assert (Hf := HJ g t dg E Hg).
  assert (Hf' : v2_derive (fun s => f (g s)) t dc).
  { eapply v2_derive_ext_loc; [ | exact Hc]. eapply filter_imp; [ | exact L]. intros s ->. reflexivity. }
  rewrite (v2_derive_unique _ _ _ _ Hf' Hf), <- m2_vec_mul, KJ. symmetry. apply m2_vec_I.
Qed.

(** ** Radial distortions y * g(|y|) *)
Lemma radius_derive (x y : R -> R) (t dx dy : R) : is_derive x t dx -> is_derive y t dy ->
  0 < x t * x t + y t * y t ->
  is_derive (fun s => sqrt (x s * x s + y s * y s)) t ((x t * dx + y t * dy) / sqrt (x t * x t + y t * y t)).
Proof.
  intros A B P. derive_ex A. derive_ex B. auto_derive.
  - repeat (split; [eassumption | ]). exact I.
  - derive_sub A. derive_sub B. req. field. assert (0 < sqrt (x t * x t + y t * y t)) by (apply sqrt_lt_R0; exact P). lra.
Qed.
Lemma radial_derive (x y r : R -> R) (g : R -> R) (t dx dy dr dg : R) :
  is_derive x t dx -> is_derive y t dy -> is_derive r t dr -> is_derive g (r t) dg ->
  v2_derive (fun s => V2 (x s * g (r s)) (y s * g (r s))) t
            (V2 (dx * g (r t) + x t * (dr * dg)) (dy * g (r t) + y t * (dr * dg))).
Proof.
  intros A B C D. assert (G : is_derive (fun s => g (r s)) t (dr * dg)) by exact (is_derive_comp g r t dg dr D C).
  split; cbn [u0 u1].
  - eapply is_derive_eq; [ | exact (is_derive_mult x (fun s => g (r s)) t dx (dr * dg) A G Rmult_comm)].
    unfold plus, mult; cbn. ring.
  - eapply is_derive_eq; [ | exact (is_derive_mult y (fun s => g (r s)) t dy (dr * dg) B G Rmult_comm)].
    unfold plus, mult; cbn. ring.
Qed.
Lemma radius_curve (c : R -> v2) t d : v2_derive c t d -> 0 < radius (c t) ->
  is_derive (fun s => radius (c s)) t ((u0 (c t) * u0 d + u1 (c t) * u1 d) / radius (c t)).
Proof.
  intros (A & B) P. unfold radius in *. apply (radius_derive (fun s => u0 (c s)) (fun s => u1 (c s))); [exact A | exact B | ].
  assert (Q := radius2 (c t)). unfold radius in Q. nra.
Qed.
Lemma radius_near (c : R -> v2) t d k : v2_derive c t d -> 0 <= k -> k < radius (c t) -> locally t (fun s => k < radius (c s)).
Proof.
  intros H K L. apply locally_gt; [ | exact L]. eapply derive_continuous. apply (radius_curve c t d H). lra.
Qed.

(** ** Equidistant *)
Definition eq_gain (D : eqd) (r : R) : R := atan r * eq_poly D (atan r) / r.
Lemma eq_gain_derive (k1 k2 k3 k4 r : R) : 0 < r ->
  is_derive (eq_gain (EQ k1 k2 k3 k4)) r
    ((1 + 3 * k1 * atan r ^ 2 + 5 * k2 * atan r ^ 4 + 7 * k3 * atan r ^ 6 + 9 * k4 * atan r ^ 8) / (1 + r * r) / r
     - atan r * (1 + k1 * atan r ^ 2 + k2 * atan r ^ 4 + k3 * atan r ^ 6 + k4 * atan r ^ 8) / (r * r)).
Proof.
  intros P. unfold eq_gain, eq_poly. cbn [ek1 ek2 ek3 ek4]. auto_derive.
  - lra.
  - req. unfold Rsqr. field. split; nra.
Qed.
Lemma eq_distort_far D y : 1 / 10 ^ 8 < radius y ->
  eq_distort D y = V2 (u0 y * eq_gain D (radius y)) (u1 y * eq_gain D (radius y)).
Proof.
  intros H. unfold eq_distort, eq_gain. fold (radius y). destruct (Rlt_dec (1 / 10 ^ 8) (radius y)); [reflexivity | contradiction].
Qed.
Lemma eq_distort_near D y : radius y <= 1 / 10 ^ 8 -> eq_distort D y = y.
Proof.
  intros H. unfold eq_distort. fold (radius y). destruct (Rlt_dec (1 / 10 ^ 8) (radius y)); [lra | ].
  destruct y as [y0 y1]. cbn [u0 u1]. f_equal; ring.
Qed.
Lemma small_pos : 0 < 1 / 10 ^ 8.
Proof. apply Rdiv_lt_0_compat; [lra | apply pow_lt; lra]. Qed.

Lemma eq_J_algebra (k1 k2 k3 k4 a r x y dx dy : R) : r * r = x * x + y * y -> 0 < r ->
  let P := k1 * a ^ 2 + k2 * a ^ 4 + k3 * a ^ 6 + k4 * a ^ 8 + 1 in
  let g := a * (1 + k1 * (a * a) + k2 * (a * a * (a * a)) + k3 * (a * a * (a * a) * (a * a)) + k4 * (a * a * (a * a) * (a * a * (a * a)))) / r in
  let dg := (1 + 3 * k1 * a ^ 2 + 5 * k2 * a ^ 4 + 7 * k3 * a ^ 6 + 9 * k4 * a ^ 8) / (1 + r * r) / r
     - a * (1 + k1 * a ^ 2 + k2 * a ^ 4 + k3 * a ^ 6 + k4 * a ^ 8) / (r * r) in
  let dr := (x * dx + y * dy) / r in
  let Q s := (k2 * s * a ^ 3 * 1 / r * 4) / (x * x + y * y + 1)
             + (k3 * s * a ^ 5 * 1 / r * 6) / (x * x + y * y + 1)
             + (k4 * s * a ^ 7 * 1 / r * 8) / (x * x + y * y + 1)
             + (k1 * s * a * 1 / r * 2) / (x * x + y * y + 1) in
  dx * g + x * (dr * dg) =
   (a * 1 / r * P + x * a * 1 / r * Q x
       + ((x * x) * P) / ((x * x + y * y) * (x * x + y * y + 1))
       - (x * x) * a * 1 / (r * r * r) * P) * dx
   + (x * a * 1 / r * Q y
       + (x * y * P) / ((x * x + y * y) * (x * x + y * y + 1))
       - x * y * a * 1 / (r * r * r) * P) * dy.
Proof.
  intros E H. cbv zeta. rewrite <- E. assert (N : r * r + 1 <> 0) by nra. assert (N' : 1 + r * r <> 0) by nra. field [E]. repeat split; lra.
Qed.
Lemma eq_J_algebra' (k1 k2 k3 k4 a r x y dx dy : R) : r * r = x * x + y * y -> 0 < r ->
  let P := k1 * a ^ 2 + k2 * a ^ 4 + k3 * a ^ 6 + k4 * a ^ 8 + 1 in
  let g := a * (1 + k1 * (a * a) + k2 * (a * a * (a * a)) + k3 * (a * a * (a * a) * (a * a)) + k4 * (a * a * (a * a) * (a * a * (a * a)))) / r in
  let dg := (1 + 3 * k1 * a ^ 2 + 5 * k2 * a ^ 4 + 7 * k3 * a ^ 6 + 9 * k4 * a ^ 8) / (1 + r * r) / r
     - a * (1 + k1 * a ^ 2 + k2 * a ^ 4 + k3 * a ^ 6 + k4 * a ^ 8) / (r * r) in
  let dr := (x * dx + y * dy) / r in
  let Q s := (k2 * s * a ^ 3 * 1 / r * 4) / (x * x + y * y + 1)
             + (k3 * s * a ^ 5 * 1 / r * 6) / (x * x + y * y + 1)
             + (k4 * s * a ^ 7 * 1 / r * 8) / (x * x + y * y + 1)
             + (k1 * s * a * 1 / r * 2) / (x * x + y * y + 1) in
  dy * g + y * (dr * dg) =
   (y * a * 1 / r * Q x
       + (x * y * P) / ((x * x + y * y) * (x * x + y * y + 1))
       - x * y * a * 1 / (r * r * r) * P) * dx
   + (a * 1 / r * P + y * a * 1 / r * Q y
       + ((y * y) * P) / ((x * x + y * y) * (x * x + y * y + 1))
       - (y * y) * a * 1 / (r * r * r) * P) * dy.
Proof.
  intros E H. cbv zeta. rewrite <- E. assert (N : r * r + 1 <> 0) by nra. assert (N' : 1 + r * r <> 0) by nra. field [E]. repeat split; lra.
Qed.

Lemma eq_jacobian D y J : 1 / 10 ^ 8 < radius y -> eq_J D y = Val J -> jacobian (eq_distort D) y J.
Proof.
  intros Hr EJ c t d E H. assert (S0 := small_pos). subst y.
  apply (v2_derive_ext_loc (fun s => V2 (u0 (c s) * eq_gain D (radius (c s))) (u1 (c s) * eq_gain D (radius (c s))))).
  { eapply filter_imp; [ | exact (radius_near c t d _ H (Rlt_le _ _ S0) Hr)]. intros s L. symmetry. apply eq_distort_far. exact L. }
  destruct D as [k1 k2 k3 k4].
  pose proof (proj1 H) as Hx. pose proof (proj2 H) as Hy.
  assert (HR := radius_curve c t d H (Rlt_trans _ _ _ S0 Hr)).
  assert (HG := eq_gain_derive k1 k2 k3 k4 (radius (c t)) (Rlt_trans _ _ _ S0 Hr)).
  eapply v2_derive_eq; [ | exact (radial_derive _ _ _ _ _ _ _ _ _ Hx Hy HR HG)].
  unfold eq_J in EJ. fold (radius (c t)) in EJ. destruct (Req_EM_T (radius (c t)) 0) as [ | _]; [discriminate | ].
  assert (Q := radius2 (c t)). assert (P := Rlt_trans _ _ _ S0 Hr).
  set (r := radius (c t)) in *. clearbody r.
  destruct d as [dx dy]. cbn [u0 u1 ek1 ek2 ek3 ek4] in *.
  match type of EJ with Val ?X = Val _ => assert (EJ' : J = X) by congruence end. rewrite EJ'. clear EJ EJ'.
  unfold m2_vec. cbn [u0 u1 n00 n01 n10 n11]. unfold eq_gain, eq_poly. cbn [ek1 ek2 ek3 ek4].
  f_equal.
  - exact (eq_J_algebra k1 k2 k3 k4 (atan r) r (u0 (c t)) (u1 (c t)) dx dy Q P).
  - exact (eq_J_algebra' k1 k2 k3 k4 (atan r) r (u0 (c t)) (u1 (c t)) dx dy Q P).
Qed.

Lemma eq_param_scalar (y0 y1 r a : R) (k1 k2 k3 k4 : R -> R) (t b1 b2 b3 b4 : R) : 0 < r ->
  is_derive k1 t b1 -> is_derive k2 t b2 -> is_derive k3 t b3 -> is_derive k4 t b4 ->
  v2_derive (fun s => V2 (y0 * (a * eq_poly (EQ (k1 s) (k2 s) (k3 s) (k4 s)) a / r)) (y1 * (a * eq_poly (EQ (k1 s) (k2 s) (k3 s) (k4 s)) a / r))) t
    (combine_cols [V2 (y0 * a ^ 3 * 1 / r) (y1 * a ^ 3 * 1 / r); V2 (y0 * a ^ 5 * 1 / r) (y1 * a ^ 5 * 1 / r);
                   V2 (y0 * a ^ 7 * 1 / r) (y1 * a ^ 7 * 1 / r); V2 (y0 * a ^ 9 * 1 / r) (y1 * a ^ 9 * 1 / r)] [b1; b2; b3; b4]).
Proof.
  intros P A B C D. derive_ex A. derive_ex B. derive_ex C. derive_ex D.
  unfold combine_cols, v2_add, v2_scale, eq_poly. cbn [u0 u1 ek1 ek2 ek3 ek4].
  split; cbn [u0 u1]; auto_derive; try (repeat split; assumption || lra); derive_sub A; derive_sub B; derive_sub C; derive_sub D; req; field; lra.
Qed.
Lemma eq_param_jacobian p0 y cols : 1 / 10 ^ 8 < radius y -> eq_paramJ y = Val cols ->
  parameter_jacobian 4 (fun p => eq_distort (eq_set p) y) p0 cols.
Proof.
  intros Hr E. assert (S0 := small_pos). unfold eq_paramJ in E. fold (radius y) in E.
  destruct (Req_EM_T (radius y) 0); [discriminate | ].
  match type of E with Val ?X = Val _ => assert (E' : cols = X) by congruence end. rewrite E'. clear E E'.
  split; [reflexivity | ]. intros p t dp _ (L & H). rewrite (list4 dp L).
  eapply v2_derive_ext; [intros s; symmetry; apply eq_distort_far; exact Hr | ].
  apply (eq_param_scalar (u0 y) (u1 y) (radius y) (atan (radius y)) (fun s => nth 0 (p s) 0) (fun s => nth 1 (p s) 0) (fun s => nth 2 (p s) 0) (fun s => nth 3 (p s) 0));
    [lra | | | | ]; apply H; lia.
Qed.
