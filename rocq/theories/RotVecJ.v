(** * The Jacobian of the angular velocity of a rotation vector *)

From Coquelicot Require Import Coquelicot.
From Coq Require Import Reals Psatz Nsatz.
From Verif Require Import KinModel KinSpec KinProofs KinExp KinAxis KinCurve KinJac RotModel RotSpec RotEuler RotVec.
Local Open Scope R_scope.

(** The angular velocity with the coefficients as functions of the angle. *)
Definition wA (n : R) : R := (1 - cos n) / (n * n).
Definition wB (n : R) : R := (n - sin n) / (n * n * n).
Definition omegaf (n : R) (p v : v3) : v3 :=
  let X := crossMx p in
  v3_add (v3_sub v (v3_scale (wA n) (m3_vec X v))) (v3_scale (wB n) (m3_vec X (m3_vec X v))).

Lemma rv_omega_f p v : 1 / 10 ^ 14 <= v3_norm p -> rv_omega p v = omegaf (v3_norm p) p v.
Proof.
  intros H. unfold rv_omega. rewrite rv_S_expD by exact H. unfold expD, omegaf, wA, wB. cbv zeta.
  set (n := v3_norm p) in *. clearbody n.
  assert (E : 2 * sin (n / 2) * sin (n / 2) / (n * n) = (1 - cos n) / (n * n)).
  { f_equal. destruct (half_angle n) as [_ ->]. pose proof (sin2_cos2 (n / 2)) as T. unfold Rsqr in T. lra. }
  rewrite E. assert (E2 : (1 - sin n / n) / (n * n) = (n - sin n) / (n * n * n)) by (field; lra).
  rewrite E2. set (a := _ / (n * n)). set (b := _ / (n * n * n)). clearbody a b. kring.
Qed.

Lemma wA_derive (n : R -> R) (t dn : R) : is_derive n t dn -> 0 < n t ->
  is_derive (fun s => wA (n s)) t ((n t * sin (n t) - 2 * (1 - cos (n t))) / (n t * n t * n t) * dn).
Proof.
  intros N P. derive_ex N. unfold wA. auto_derive.
  - assert (n t * n t <> 0) by nra. tauto.
  - derive_sub N. field. lra.
Qed.
Lemma wB_derive (n : R -> R) (t dn : R) : is_derive n t dn -> 0 < n t ->
  is_derive (fun s => wB (n s)) t
    ((n t * (1 - cos (n t)) - 3 * (n t - sin (n t))) / (n t * n t * n t * n t) * dn).
Proof.
  intros N P. derive_ex N. unfold wB. auto_derive.
  - assert (0 < n t * n t) by nra. assert (n t * n t * n t <> 0) by nra. tauto.
  - derive_sub N. field. lra.
Qed.

Lemma omega_derive_scalar (A B x y z u v w : R -> R) (t dA dB dx dy dz du dv dw : R) :
  is_derive A t dA -> is_derive B t dB ->
  is_derive x t dx -> is_derive y t dy -> is_derive z t dz ->
  is_derive u t du -> is_derive v t dv -> is_derive w t dw ->
  let P := V3 (x t) (y t) (z t) in let V := V3 (u t) (v t) (w t) in
  let D := V3 dx dy dz in
  v3_derive (fun s => let X := crossMx (V3 (x s) (y s) (z s)) in let V := V3 (u s) (v s) (w s) in
      v3_add (v3_sub V (v3_scale (A s) (m3_vec X V))) (v3_scale (B s) (m3_vec X (m3_vec X V)))) t
    (v3_add
      (v3_add (v3_sub (v3_scale dB (v3_cross P (v3_cross P V))) (v3_scale dA (v3_cross P V)))
         (v3_sub (v3_scale (B t) (v3_add (v3_cross D (v3_cross P V)) (v3_cross P (v3_cross D V))))
                 (v3_scale (A t) (v3_cross D V))))
      (m3_vec (m3_add (m3_sub m3_I (m3_scale (A t) (crossMx P))) (m3_mul (m3_scale (B t) (crossMx P)) (crossMx P)))
         (V3 du dv dw))).
Proof.
  intros HA HB X Y Z U V W. cbv zeta.
  derive_ex HA. derive_ex HB. derive_ex X. derive_ex Y. derive_ex Z. derive_ex U. derive_ex V. derive_ex W.
  unfold v3_derive. kunf.
  split; [ | split];
    (auto_derive; [derive_side | derive_sub HA; derive_sub HB; derive_sub X; derive_sub Y; derive_sub Z; derive_sub U; derive_sub V; derive_sub W; ring]).
Qed.

(** The generated entries are the coefficients of that derivative. *)
Lemma rv_J_entries p v d : 0 < v3_norm p ->
  exists J, rv_J p v = Some J /\ snd J = rv_S p /\
  m3_vec (fst J) d =
  (let n := v3_norm p in let dn := v3_dot p d / n in
   let dA := (n * sin n - 2 * (1 - cos n)) / (n * n * n) * dn in
   let dB := (n * (1 - cos n) - 3 * (n - sin n)) / (n * n * n * n) * dn in
   v3_add (v3_sub (v3_scale dB (v3_cross p (v3_cross p v))) (v3_scale dA (v3_cross p v)))
     (v3_sub (v3_scale (wB n) (v3_add (v3_cross d (v3_cross p v)) (v3_cross p (v3_cross d v))))
             (v3_scale (wA n) (v3_cross d v)))).
Proof.
  intros P. unfold rv_J. cbv zeta. change (x0 p * x0 p + x1 p * x1 p + x2 p * x2 p) with (v3_dot p p).
  change (sqrt (v3_dot p p)) with (v3_norm p).
  assert (E8 : v3_dot p p = v3_norm p * v3_norm p) by (symmetry; apply v3_norm_sq).
  assert (E32 : pow32 (v3_dot p p) = v3_norm p * v3_norm p * v3_norm p).
  { unfold pow32. change (sqrt (v3_dot p p)) with (v3_norm p). rewrite E8. reflexivity. }
  assert (E52 : pow52 (v3_dot p p) = v3_norm p * v3_norm p * (v3_norm p * v3_norm p) * v3_norm p).
  { unfold pow52. change (sqrt (v3_dot p p)) with (v3_norm p). rewrite E8. reflexivity. }
  destruct (eqb_spec (v3_dot p p) 0) as [Z | _]; [nra | ].
  eexists. split; [reflexivity | ]. cbn [fst snd]. split; [reflexivity | ].
  rewrite E32, E52. rewrite !E8. unfold wA, wB.
  set (n := v3_norm p) in *. unfold v3_dot in E8.
  set (sn := sin n). set (cn := cos n).
  clearbody n sn cn. clear E32 E52. destruct p as [x y z], v as [u v w], d as [dx dy dz].
  cbn [x0 x1 x2] in *. symmetry in E8.
  kunf. assert (N : n <> 0) by lra. clear P.
  assert (Q : n * n = x * x + y * y + z * z) by lra. clear E8.
  f_equal.
  all: field [Q]; exact N.
Qed.

Lemma rv_jac : velocity_jacobian rv_omega (fun p v J => rv_J p v = Some J) (fun p => 1 / 10 ^ 14 < v3_norm p).
Proof.
  intros p v t pd vd J Hp Hv L HJ.
  destruct (rv_J_entries (p t) (v t) pd ltac:(lra)) as (J' & E1 & E2 & E3).
  assert (J' = J) as -> by congruence. clear E1 HJ.
  pose proof (norm_derive p t pd Hp ltac:(lra)) as N.
  pose proof (wA_derive _ t _ N ltac:(lra)) as DA. pose proof (wB_derive _ t _ N ltac:(lra)) as DB.
  destruct Hp as (X & Y & Z). destruct Hv as (U & V & W).
  pose proof (omega_derive_scalar _ _ _ _ _ _ _ _ t _ _ _ _ _ _ _ _ DA DB X Y Z U V W) as H.
  cbv zeta in H. rewrite !v3_eta in H.
  rewrite E2, E3. cbv zeta.
  assert (ES : m3_vec (rv_S (p t)) vd =
    m3_vec (m3_add (m3_sub m3_I (m3_scale (wA (v3_norm (p t))) (crossMx (p t))))
              (m3_mul (m3_scale (wB (v3_norm (p t))) (crossMx (p t))) (crossMx (p t)))) vd).
  { change (m3_vec (rv_S (p t)) vd) with (rv_omega (p t) vd). rewrite rv_omega_f by lra. unfold omegaf. cbv zeta.
    set (a := wA _). set (b := wB _). clearbody a b. generalize (p t). intros q. clear. kring. }
  rewrite ES.
  eapply v3_derive_ext_loc; [ | exact H].
  apply (filter_imp (fun s => 1 / 10 ^ 14 < v3_norm (p s))).
  - intros s Hs. rewrite rv_omega_f by lra. unfold omegaf. cbv zeta. rewrite !v3_eta. reflexivity.
  - apply (locally_gt (fun s => v3_norm (p s))); [eapply derive_continuous; exact N | exact L].
Qed.

(** At the zero vector the code divides by zero, although the derivative
    exists: there [rv_omega] is the identity in its second argument along
    every line short enough. *)
Lemma rv_J_zero v : rv_J v3_zero v = None.
Proof.
  unfold rv_J, v3_zero. cbv zeta. cbn [x0 x1 x2].
  destruct (eqb_spec (0 * 0 + 0 * 0 + 0 * 0) 0) as [_ | N]; [reflexivity | exfalso; apply N; ring].
Qed.
Lemma rv_J_none p v : rv_J p v = None <-> p = v3_zero.
Proof.
  split.
  - unfold rv_J. cbv zeta. destruct (eqb_spec (x0 p * x0 p + x1 p * x1 p + x2 p * x2 p) 0) as [Z | _]; [ | discriminate].
    intros _. destruct p as [x y z]. cbn [x0 x1 x2] in Z. unfold v3_zero. f_equal; nra.
  - intros ->. apply rv_J_zero.
Qed.

(** Half turns. *)
Lemma half_turn_matrix C : C = M3 1 0 0 0 (-1) 0 0 0 (-1) ->
  SO3 C /\ rv_params C = v3_zero /\ er_params C = v3_zero /\ rot_angle C = PI.
Proof.
  intros ->. split; [split; [kunf; f_equal; ring | kunf; ring] | ].
  assert (S0 : V3 (0 - 0) (0 - 0) (0 - 0) = v3_zero) by (unfold v3_zero; f_equal; ring).
  split; [ | split].
  - unfold rv_params. cbn [m00 m01 m02 m10 m11 m12 m20 m21 m22]. rewrite S0, v3_norm_zero, Rabs_R0.
    destruct (ltb _ (1 / 10 ^ 14)); [reflexivity | ].
    destruct (ltb_spec 0 (1 / 10 ^ 14)) as [_ | L]; [reflexivity | lra].
  - unfold er_params. cbn [m00 m01 m02 m10 m11 m12 m20 m21 m22]. rewrite S0, v3_norm_zero.
    destruct (ltb _ (1 / 10 ^ 14)); [reflexivity | ].
    destruct (ltb_spec 0 (1 / 10 ^ 14)) as [_ | L]; [reflexivity | lra].
  - unfold rot_angle, m3_trace. cbn [m00 m11 m22]. replace ((1 + -1 + -1 - 1) / 2) with (-(1)) by field.
    rewrite acos_opp, acos_1. ring.
Qed.
Lemma rv_C_zero : rv_C v3_zero = m3_I.
Proof.
  unfold rv_C. rewrite v3_norm_zero. destruct (ltb_spec 0 (1 / 10 ^ 14)) as [_ | L]; [reflexivity | lra].
Qed.
Lemma rv_C_half_turn : rv_C (V3 PI 0 0) = M3 1 0 0 0 (-1) 0 0 0 (-1).
Proof.
  pose proof PI2_1 as P.
  assert (N : v3_norm (V3 PI 0 0) = PI).
  { unfold v3_norm, v3_dot. cbn [x0 x1 x2]. apply sqrt_lem_1; nra. }
  unfold rv_C. rewrite N. destruct (ltb_spec PI (1 / 10 ^ 14)) as [L | _]; [lra | ]. cbv zeta.
  rewrite sin_PI, cos_PI. kunf. f_equal; field; lra.
Qed.
