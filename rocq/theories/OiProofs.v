(** * Lines seen by an omnidirectional camera; compaction; the search *)
From Coq Require Import Reals Lra Psatz List Arith Lia ZArith Bool.
From Verif Require Import Base KinModel DistModel PinModel OmniModel IniModel IniSpec IniProofs IniLoop OiModel OiSpec.
Import ListNotations.
Local Close Scope Z_scope.
Local Open Scope R_scope.

(** ** The estimate from a row *)
Lemma residual_nonneg P x : 0 <= residual P x.
Proof.
  unfold residual. induction P as [ | a P IH]; cbn [map total]; [ lra | ].
  pose proof (Rle_0_sqr (dot4 a x)). unfold Rsqr in *. lra.
Qed.
Lemma residual_zero P x : residual P x = 0 -> forall r, In r P -> dot4 r x = 0.
Proof.
  unfold residual. induction P as [ | a P IH]; intros E r Hr; [ destruct Hr | ]. cbn [map total] in E.
  pose proof (Rle_0_sqr (dot4 a x)) as S. unfold Rsqr in S. pose proof (residual_nonneg P x) as N. unfold residual in N.
  destruct Hr as [<- | Hr].
  - apply Rsqr_0_uniq. unfold Rsqr. lra.
  - apply IH; [ lra | exact Hr ].
Qed.
Lemma residual_all P x : (forall r, In r P -> dot4 r x = 0) -> residual P x = 0.
Proof.
  unfold residual. induction P as [ | a P IH]; intros H; [ reflexivity | ]. cbn [map total].
  rewrite (H a (or_introl eq_refl)), IH; [ ring | intros r Hr; apply H; right; exact Hr ].
Qed.
Definition scale4 (s : R) (a : v4) : v4 := V4 (s * q0 a) (s * q1 a) (s * q2 a) (s * q3 a).
Lemma dot4_scale a s b : dot4 a (scale4 s b) = s * dot4 a b.
Proof. unfold dot4, scale4; cbn [q0 q1 q2 q3]. ring. Qed.
Lemma null_exact solve_z P x : null_solution P (solve_z P) -> 0 < dot4 x x -> (forall r, In r P -> dot4 r x = 0) ->
  forall r, In r P -> dot4 r (solve_z P) = 0.
Proof.
  intros S Hx H. destruct S as [_ Min]. apply residual_zero.
  assert (L : 0 < sqrt (dot4 x x)) by (apply sqrt_lt_R0, Hx).
  set (y := scale4 (/ sqrt (dot4 x x)) x).
  assert (Y1 : dot4 y y = 1).
  { unfold y. rewrite dot4_scale. replace (dot4 (scale4 (/ sqrt (dot4 x x)) x) x) with (/ sqrt (dot4 x x) * dot4 x x) by (unfold dot4, scale4; cbn [q0 q1 q2 q3]; ring).
    rewrite <- (sqrt_sqrt (dot4 x x)) at 3 by lra. field. lra. }
  pose proof (Min y Y1) as M. rewrite (residual_all P y) in M.
  - pose proof (residual_nonneg P (solve_z P)). lra.
  - intros r Hr. unfold y. rewrite dot4_scale, (H r Hr). ring.
Qed.

(** The circle a plane is seen as *)
Lemma norm_sq p : v3_norm p * v3_norm p = x0 p * x0 p + x1 p * x1 p + x2 p * x2 p.
Proof.
  unfold v3_norm, v3_dot. apply sqrt_sqrt.
  pose proof (Rle_0_sqr (x0 p)); pose proof (Rle_0_sqr (x1 p)); pose proof (Rle_0_sqr (x2 p)). unfold Rsqr in *. lra.
Qed.
Definition line_vec (f : R) (n : v3) : v4 := V4 (x0 n) (x1 n) (f * x2 n) (x2 n / f).
Lemma plane_row f cu cv n p : 0 < f -> 0 < x2 p + v3_norm p -> v3_dot n p = 0 ->
  dot4 (line_row cu cv (sphere_image f cu cv p)) (line_vec f n) = 0.
Proof.
  intros Hf Hp Hn. unfold line_row, sphere_image, line_vec, dot4. cbv zeta. cbn [u0 u1 q0 q1 q2 q3]. unfold square.
  pose proof (norm_sq p) as NS. set (r := v3_norm p) in *. set (w := x2 p + r) in *.
  assert (XY : x0 p * x0 p + x1 p * x1 p = w * (r - x2 p)) by (unfold w; nra).
  replace (f * (x0 p / w) + cu - cu) with (f * x0 p / w) by (field; lra).
  replace (f * (x1 p / w) + cv - cv) with (f * x1 p / w) by (field; lra).
  transitivity (f / w * (x0 n * x0 p + x1 n * x1 p + x2 n * (w * w - (x0 p * x0 p + x1 p * x1 p)) / (2 * w))); [ field; split; lra | ].
  rewrite XY. replace (x2 n * (w * w - w * (r - x2 p)) / (2 * w)) with (x2 n * (w - (r - x2 p)) / 2) by (field; lra).
  replace (w - (r - x2 p)) with (2 * x2 p) by (unfold w; ring).
  unfold v3_dot in Hn. replace (x0 n * x0 p + x1 n * x1 p + x2 n * (2 * x2 p) / 2) with 0 by lra. ring.
Qed.
Lemma plane_circle f cu cv n k : 0 < f -> x2 n <> 0 -> v3_dot n n = 1 ->
  dot4 (line_row cu cv k) (line_vec f n) = 0 ->
  sq_dist k (V2 (cu + f * x0 n / x2 n) (cv + f * x1 n / x2 n)) = (f / x2 n) * (f / x2 n).
Proof.
  intros Hf Hn Hu E. unfold dot4, line_row, line_vec in E. cbv zeta in E. cbn [q0 q1 q2 q3] in E. unfold square in E.
  unfold sq_dist. cbn [u0 u1]. set (u := u0 k - cu) in *. set (v := u1 k - cv) in *.
  replace (u0 k - (cu + f * x0 n / x2 n)) with (u - f * x0 n / x2 n) by (unfold u; ring).
  replace (u1 k - (cv + f * x1 n / x2 n)) with (v - f * x1 n / x2 n) by (unfold v; ring).
  assert (UV : (u * u + v * v) * x2 n = f * (2 * (u * x0 n + v * x1 n) + f * x2 n)).
  { assert (E' : (u * u + v * v) * (x2 n / f) = 2 * (u * x0 n + v * x1 n) + f * x2 n) by lra.
    rewrite <- E'. field. lra. }
  unfold v3_dot in Hu.
  replace ((u - f * x0 n / x2 n) * (u - f * x0 n / x2 n) + (v - f * x1 n / x2 n) * (v - f * x1 n / x2 n))
    with (((u * u + v * v) * x2 n * x2 n - 2 * f * x2 n * (u * x0 n + v * x1 n) + f * f * (x0 n * x0 n + x1 n * x1 n)) / (x2 n * x2 n)) by (field; exact Hn).
  rewrite UV. replace (x0 n * x0 n + x1 n * x1 n) with (1 - x2 n * x2 n) by lra. field. exact Hn.
Qed.
(** Only multiples of the line vector vanish on three different points. *)
Lemma null_unique f cu cv n pts C : 0 < f -> x2 n <> 0 -> v3_dot n n = 1 ->
  (forall k, In k pts -> dot4 (line_row cu cv k) (line_vec f n) = 0) ->
  (forall k, In k pts -> dot4 (line_row cu cv k) C = 0) -> three_different pts ->
  C = scale4 (q3 C * f / x2 n) (line_vec f n).
Proof.
  intros Hf Hn Hu HN HC (p & q & s & Hp & Hq & Hs & N1 & N2 & N3).
  set (c := V2 (cu + f * x0 n / x2 n) (cv + f * x1 n / x2 n)).
  assert (R0 : 0 <= Rabs (f / x2 n)) by apply Rabs_pos.
  assert (OC : forall k, In k pts -> on_circle c (Rabs (f / x2 n)) k).
  { intros k Hk. apply on_circle_sq; [ exact R0 | ]. unfold c. rewrite (plane_circle f cu cv n k Hf Hn Hu (HN k Hk)).
    rewrite <- Rabs_mult. symmetry. apply Rabs_pos_eq. apply Rle_0_sqr. }
  pose proof (circle_three pts c _ p q s OC Hp Hq Hs N1 N2 N3) as NS.
  set (l := q3 C * f / x2 n).
  assert (L : forall k, In k pts -> (q0 C - l * x0 n) * u0 k + (q1 C - l * x1 n) * u1 k
     = (q0 C - l * x0 n) * cu + (q1 C - l * x1 n) * cv - (q2 C - l * (f * x2 n)) / 2).
  { intros k Hk. pose proof (HN k Hk) as E1. pose proof (HC k Hk) as E2.
    unfold dot4, line_row, line_vec in E1, E2. cbv zeta in E1, E2. cbn [q0 q1 q2 q3] in E1, E2.
    assert (LX : l * (x2 n / f) = q3 C) by (unfold l; field; split; [ lra | exact Hn ]).
    set (ss := square (u0 k - cu) + square (u1 k - cv)) in *.
    assert (E3 : (u0 k - cu) * (l * x0 n) + (u1 k - cv) * (l * x1 n) + / 2 * (l * (f * x2 n)) + - / 2 * ss * q3 C = 0).
    { rewrite <- LX. transitivity (l * ((u0 k - cu) * x0 n + (u1 k - cv) * x1 n + / 2 * (f * x2 n) + - / 2 * ss * (x2 n / f))); [ ring | ]. rewrite E1. ring. }
    lra. }
  assert (Z : q0 C - l * x0 n = 0 /\ q1 C - l * x1 n = 0).
  { destruct (Req_dec (q0 C - l * x0 n) 0) as [Za | Za]; [ destruct (Req_dec (q1 C - l * x1 n) 0) as [Zb | Zb]; [ split; assumption | ] | ];
      exfalso; apply NS; do 3 eexists; (split; [ | exact L ]); [ right; exact Zb | left; exact Za ]. }
  destruct Z as [Za Zb].
  pose proof (L p Hp) as Lp. rewrite Za, Zb in Lp.
  assert (Zc : q2 C - l * (f * x2 n) = 0) by lra.
  destruct C as [c0 c1 c2 c3]. unfold scale4, line_vec. cbn [q0 q1 q2 q3] in *. f_equal; try lra.
  unfold l. field. split; [ lra | exact Hn ].
Qed.
Lemma abs_sqrt_inv l : l <> 0 -> sqrt (1 / (l * l)) = / Rabs l.
Proof.
  intros H. assert (0 < Rabs l) by (apply Rabs_pos_lt, H).
  replace (1 / (l * l)) with (/ Rabs l * / Rabs l).
  - apply sqrt_square. left. apply Rinv_0_lt_compat; assumption.
  - rewrite <- Rinv_mult, <- Rabs_mult. rewrite Rabs_pos_eq by apply Rle_0_sqr. field. exact H.
Qed.
(** Through the axis the image is a line. *)
Lemma roots3 a b c s t r : s <> t -> s <> r -> t <> r ->
  a * (s * s) + b * s + c = 0 -> a * (t * t) + b * t + c = 0 -> a * (r * r) + b * r + c = 0 -> a = 0 /\ b = 0 /\ c = 0.
Proof.
  intros N1 N2 N3 H1 H2 H3.
  assert (E1 : (s - t) * (a * (s + t) + b) = 0) by lra.
  assert (E2 : (s - r) * (a * (s + r) + b) = 0) by lra.
  apply Rmult_integral in E1. apply Rmult_integral in E2.
  destruct E1 as [E1 | E1]; [ exfalso; apply N1; lra | ]. destruct E2 as [E2 | E2]; [ exfalso; apply N2; lra | ].
  assert (E3 : (t - r) * a = 0) by lra. apply Rmult_integral in E3. destruct E3 as [E3 | E3]; [ exfalso; apply N3; lra | ].
  rewrite E3 in *. split; [ reflexivity | ]. split; [ lra | ]. assert (b = 0) by lra. rewrite H in *. lra.
Qed.
Lemma null_radial f cu cv n pts C : x2 n = 0 -> v3_dot n n = 1 ->
  (forall k, In k pts -> dot4 (line_row cu cv k) (line_vec f n) = 0) ->
  (forall k, In k pts -> dot4 (line_row cu cv k) C = 0) -> three_different pts ->
  C = scale4 (q0 C * x0 n + q1 C * x1 n) (line_vec f n).
Proof.
  intros Hn Hu HN HC (p & q & s & Hp & Hq & Hs & N1 & N2 & N3). unfold v3_dot in Hu. rewrite Hn in Hu.
  set (pos := fun k : v2 => - x1 n * (u0 k - cu) + x0 n * (u1 k - cv)).
  assert (XY : forall k, In k pts -> u0 k - cu = - x1 n * pos k /\ u1 k - cv = x0 n * pos k).
  { intros k Hk. pose proof (HN k Hk) as E. unfold dot4, line_row, line_vec in E. cbv zeta in E. cbn [q0 q1 q2 q3] in E. rewrite Hn in E.
    assert (E' : (u0 k - cu) * x0 n + (u1 k - cv) * x1 n = 0) by (unfold Rdiv in E; lra).
    unfold pos. set (u := u0 k - cu) in *. set (v := u1 k - cv) in *. split.
    - transitivity (u * (x0 n * x0 n + x1 n * x1 n) - x0 n * (u * x0 n + v * x1 n)); [ rewrite E'; replace (x0 n * x0 n + x1 n * x1 n) with 1 by lra; ring | ring ].
    - transitivity (v * (x0 n * x0 n + x1 n * x1 n) - x1 n * (u * x0 n + v * x1 n)); [ rewrite E'; replace (x0 n * x0 n + x1 n * x1 n) with 1 by lra; ring | ring ]. }
  assert (IN : forall k k', In k pts -> In k' pts -> k <> k' -> pos k <> pos k').
  { intros k k' Hk Hk' N E. apply N. destruct (XY k Hk) as [A1 A2]. destruct (XY k' Hk') as [B1 B2]. rewrite E in *.
    destruct k as [k0 k1], k' as [k0' k1']. cbn [u0 u1] in *. f_equal; lra. }
  assert (Q : forall k, In k pts -> (- / 2 * q3 C) * (pos k * pos k) + (q1 C * x0 n - q0 C * x1 n) * pos k + / 2 * q2 C = 0).
  { intros k Hk. pose proof (HC k Hk) as E. unfold dot4, line_row in E. cbv zeta in E. cbn [q0 q1 q2 q3] in E. unfold square in E.
    destruct (XY k Hk) as [A1 A2]. rewrite A1, A2 in E.
    replace (- x1 n * pos k * (- x1 n * pos k) + x0 n * pos k * (x0 n * pos k)) with ((x0 n * x0 n + x1 n * x1 n) * (pos k * pos k)) in E by ring.
    replace (x0 n * x0 n + x1 n * x1 n) with 1 in E by lra. lra. }
  destruct (roots3 _ _ _ (pos p) (pos q) (pos s) (IN p q Hp Hq N1) (IN p s Hp Hs N2) (IN q s Hq Hs N3) (Q p Hp) (Q q Hq) (Q s Hs)) as (Z1 & Z2 & Z3).
  destruct C as [c0 c1 c2 c3]. unfold scale4, line_vec. cbn [q0 q1 q2 q3] in *. rewrite Hn. f_equal.
  - transitivity (c0 * (x0 n * x0 n + x1 n * x1 n)); [ replace (x0 n * x0 n + x1 n * x1 n) with 1 by lra; ring | ].
    transitivity ((c0 * x0 n + c1 * x1 n) * x0 n - x1 n * (c1 * x0 n - c0 * x1 n)); [ ring | rewrite Z2; ring ].
  - transitivity (c1 * (x0 n * x0 n + x1 n * x1 n)); [ replace (x0 n * x0 n + x1 n * x1 n) with 1 by lra; ring | ].
    transitivity ((c0 * x0 n + c1 * x1 n) * x1 n + x0 n * (c1 * x0 n - c0 * x1 n)); [ ring | rewrite Z2; ring ].
  - lra.
  - unfold Rdiv. lra.
Qed.
Lemma row_gamma_plane solve_z f cu cv n pts : null_solution (map (line_row cu cv) pts) (solve_z (map (line_row cu cv) pts)) -> 0 < f -> (4 < length pts)%nat ->
  plane_seen f cu cv n pts -> three_different pts ->
  (radial n -> row_gamma solve_z cu cv pts = None) /\ (~ radial n -> row_gamma solve_z cu cv pts = Some f).
Proof.
  intros S Hf HL (Hu & Hk) T3. unfold row_gamma. rewrite (proj2 (Nat.ltb_lt _ _) HL). cbv zeta.
  assert (HN : forall k, In k pts -> dot4 (line_row cu cv k) (line_vec f n) = 0).
  { intros k I. destruct (Hk k I) as (p & Hp & Hd & ->). apply plane_row; assumption. }
  set (C := solve_z (map (line_row cu cv) pts)).
  assert (LV : 0 < dot4 (line_vec f n) (line_vec f n)).
  { unfold dot4, line_vec; cbn [q0 q1 q2 q3]. unfold v3_dot in Hu.
    pose proof (Rle_0_sqr (x0 n)); pose proof (Rle_0_sqr (x1 n)); pose proof (Rle_0_sqr (x2 n / f)). unfold Rsqr in *.
    destruct (Req_dec (x2 n) 0) as [Z | Z].
    - rewrite Z in *. pose proof (Rle_0_sqr (f * 0)). unfold Rsqr in *. lra.
    - assert (f * x2 n <> 0) by (apply Rmult_integral_contrapositive_currified; lra). pose proof (Rsqr_pos_lt _ H2). unfold Rsqr in *. lra. }
  assert (HC : forall k, In k pts -> dot4 (line_row cu cv k) C = 0).
  { intros k I. apply (null_exact solve_z _ (line_vec f n) S LV).
    - intros r Hin. apply in_map_iff in Hin as (k' & <- & I'). apply HN, I'.
    - apply in_map, I. }
  assert (EX : exists l, C = scale4 l (line_vec f n)).
  { destruct (Req_dec (x2 n) 0) as [Z | Z].
    - eexists. exact (null_radial f cu cv n pts C Z Hu HN HC T3).
    - eexists. exact (null_unique f cu cv n pts C Hf Z Hu HN HC T3). }
  destruct EX as (l & EC).
  pose proof (proj1 S) as U. fold C in U.
  assert (Hl : l <> 0).
  { intros Z. rewrite EC, Z in U. unfold dot4, scale4 in U. cbn [q0 q1 q2 q3] in U. lra. }
  rewrite EC. unfold scale4, line_vec. cbn [q0 q1 q2 q3]. unfold v3_dot in Hu.
  assert (Et : square (l * x0 n) + square (l * x1 n) + l * (f * x2 n) * (l * (x2 n / f)) = l * l).
  { unfold square. transitivity (l * l * (x0 n * x0 n + x1 n * x1 n + x2 n * x2 n)); [ field; lra | rewrite Hu; ring ]. }
  rewrite Et. pose proof (Rsqr_pos_lt l Hl) as LP. unfold Rsqr in LP.
  destruct (Rle_dec (l * l) 0); [ lra | ].
  rewrite (abs_sqrt_inv l Hl). assert (AP : 0 < Rabs l) by (apply Rabs_pos_lt, Hl).
  assert (AA : Rabs l * Rabs l = l * l) by (rewrite <- Rabs_mult; apply Rabs_pos_eq; lra).
  assert (Sq : forall x, square (l * x * / Rabs l) = x * x).
  { intros x. unfold square. transitivity (l * l * (x * x) / (Rabs l * Rabs l)); [ field; lra | rewrite AA; field; lra ]. }
  unfold hypot, radial. rewrite !Sq.
  destruct (ltb_spec (95 / 100) (sqrt (x0 n * x0 n + x1 n * x1 n))) as [[-> L] | [-> L]].
  { split; [ reflexivity | intros N; contradiction ]. }
  split; [ intros N; lra | intros _ ].
  assert (Hxy : x0 n * x0 n + x1 n * x1 n <= 95 / 100 * (95 / 100)).
  { assert (0 <= x0 n * x0 n + x1 n * x1 n) by (pose proof (Rle_0_sqr (x0 n)); pose proof (Rle_0_sqr (x1 n)); unfold Rsqr in *; lra).
    rewrite <- (sqrt_sqrt (x0 n * x0 n + x1 n * x1 n)) by assumption. apply Rmult_le_compat; auto using sqrt_pos. }
  assert (Hz : x2 n <> 0) by (intros Z; rewrite Z in Hu; lra).
  f_equal. replace (1 - x0 n * x0 n - x1 n * x1 n) with (x2 n * x2 n) by lra.
  assert (SZ : sqrt (x2 n * x2 n) = Rabs (x2 n)) by apply sqrt_Rsqr_abs. rewrite SZ.
  assert (ZP : 0 < Rabs (x2 n)) by (apply Rabs_pos_lt, Hz).
  unfold Rdiv. rewrite !Rabs_mult, !Rabs_inv, !Rabs_Rabsolu, (Rabs_pos_eq f) by lra. field. split; lra.
Qed.

(** ** Compaction of the corners *)
Lemma put_at_length {A} : forall (l : list A) n x, length (put_at n x l) = length l.
Proof. induction l as [ | a l IH]; intros [ | n] x; cbn [put_at length]; auto. Qed.
Lemma put_at_same {A} : forall (l : list A) n x, (n < length l)%nat -> nth_error (put_at n x l) n = Some x.
Proof. induction l as [ | a l IH]; intros [ | n] x H; cbn [put_at length nth_error] in *; try lia; [ reflexivity | apply IH; lia ]. Qed.
Lemma put_at_other {A} : forall (l : list A) n m x, n <> m -> nth_error (put_at n x l) m = nth_error l m.
Proof. induction l as [ | a l IH]; intros [ | n] [ | m] x H; cbn [put_at nth_error]; try reflexivity; try lia. apply IH; lia. Qed.
Lemma firstn_put {A} : forall (l : list A) n x, (n < length l)%nat -> firstn (S n) (put_at n x l) = firstn n l ++ [x].
Proof.
  induction l as [ | a l IH]; intros [ | n] x H; cbn [put_at length] in *; try lia; [ reflexivity | ].
  change (firstn (S (S n)) (a :: put_at n x l)) with (a :: firstn (S n) (put_at n x l)). rewrite IH by lia. reflexivity.
Qed.
Definition kept (D : distortion) (M : omni) (e : v3 * v2) : list (v3 * v2) :=
  match front_ray D M (snd e) with Some p => [(fst e, V2 (x0 p / x2 p) (x1 p / x2 p))] | None => [] end.
Lemma combine_app {A B} : forall (l l' : list A) (m m' : list B), length l = length m -> combine (l ++ l') (m ++ m') = combine l m ++ combine l' m'.
Proof. induction l as [ | a l IH]; intros l' [ | b m] m' H; cbn [length app combine] in *; try discriminate; [ reflexivity | rewrite IH by lia; reflexivity ]. Qed.
Lemma compact_inv D M Ps0 Ms0 : length Ps0 = length Ms0 -> forall n, (n <= length Ms0)%nat ->
  exists c Ps Ms, fold_left (compact_step D M) (seq 0 n) (0%nat, Ps0, Ms0) = (c, Ps, Ms) /\
    (c <= n)%nat /\ length Ps = length Ps0 /\ length Ms = length Ms0 /\
    (forall i, (n <= i)%nat -> nth_error Ps i = nth_error Ps0 i /\ nth_error Ms i = nth_error Ms0 i) /\
    combine (firstn c Ps) (firstn c Ms) = flat_map (kept D M) (firstn n (combine Ps0 Ms0)).
Proof.
  intros L. induction n as [ | n IH]; intros Hn.
  - exists 0%nat, Ps0, Ms0. cbn [seq fold_left firstn]. split; [ reflexivity | ].
    split; [ lia | split; [ reflexivity | split; [ reflexivity | split; [ intros; split; reflexivity | reflexivity ] ] ] ].
  - destruct IH as (c & Ps & Ms & E & Hc & LP & LM & Hi & Hk); [ lia | ].
    rewrite seq_S, fold_left_app, E. cbn [fold_left Nat.add].
    destruct (Hi n (Nat.le_refl n)) as [EP EM].
    destruct (nth_error Ps0 n) as [P | ] eqn:NP; [ | apply nth_error_None in NP; lia ].
    destruct (nth_error Ms0 n) as [m | ] eqn:NM; [ | apply nth_error_None in NM; lia ].
    assert (NC : nth_error (combine Ps0 Ms0) n = Some (P, m)).
    { clear -NP NM L. revert Ms0 n NP NM L. induction Ps0 as [ | a l IH]; intros [ | b q] [ | n] NP NM L; cbn [nth_error combine length] in *; try discriminate.
      - congruence.
      - apply IH; auto. }
    assert (FS : firstn (S n) (combine Ps0 Ms0) = firstn n (combine Ps0 Ms0) ++ [(P, m)]).
    { clear -NC. revert n NC. induction (combine Ps0 Ms0) as [ | a l IH]; intros [ | n] NC; cbn [nth_error] in NC; try discriminate.
      - cbn [firstn app]. congruence.
      - change (firstn (S (S n)) (a :: l)) with (a :: firstn (S n) l). rewrite (IH n NC). reflexivity. }
    unfold compact_step at 1. rewrite EP, EM.
    rewrite FS, flat_map_app. cbn [flat_map]. rewrite app_nil_r. unfold kept at 2. cbn [fst snd].
    destruct (front_ray D M m) as [p | ].
    + do 3 eexists. split; [ reflexivity | ]. split; [ lia | ]. rewrite !put_at_length. split; [ exact LP | split; [ exact LM | split ] ].
      * intros i H. rewrite !put_at_other by lia. apply Hi. lia.
      * rewrite !firstn_put by lia. rewrite combine_app by (rewrite !firstn_length; lia). rewrite Hk. reflexivity.
    + do 3 eexists. split; [ reflexivity | ]. split; [ lia | split; [ exact LP | split; [ exact LM | split ] ] ].
      * intros i H. apply Hi. lia.
      * rewrite Hk, app_nil_r. reflexivity.
Qed.
Lemma corners_combine b n : combine (target_corners b n) (image_corners b n)
  = flat_map (fun i => map (pair (flat_point (b_point b i))) (seen (corner (b_view b) i))) (seq 0 n) /\
  length (target_corners b n) = length (image_corners b n).
Proof.
  unfold target_corners, image_corners, seen_ids. induction (seq 0 n) as [ | i l IH]; [ split; reflexivity | ].
  cbn [filter flat_map]. destruct IH as [E L]. destruct (corner (b_view b) i) as [k | ]; cbn [is_seen map seen app length combine].
  - rewrite E, L. split; reflexivity.
  - split; assumption.
Qed.
Lemma pnp_input_eq D M b n : pnp_input D M b n
  = flat_map (fun i => match corner (b_view b) i with
       | Some k => match front_ray D M k with Some p => [(flat_point (b_point b i), V2 (x0 p / x2 p) (x1 p / x2 p))] | None => [] end
       | None => [] end) (seq 0 n).
Proof.
  destruct (corners_combine b n) as [EC EL]. unfold pnp_input. cbv zeta.
  destruct (compact_inv D M _ _ EL _ (Nat.le_refl _)) as (c & Ps & Ms & E & _ & _ & _ & _ & Hk). rewrite E, Hk.
  rewrite firstn_all2 by (rewrite combine_length; lia). rewrite EC. clear.
  induction (seq 0 n) as [ | i l IH]; [ reflexivity | ]. cbn [flat_map]. rewrite flat_map_app, IH. f_equal.
  destruct (corner (b_view b) i) as [k | ]; cbn [seen map flat_map]; [ | reflexivity ]. rewrite app_nil_r. reflexivity.
Qed.

(** ** Errors *)
Lemma reprojection_eq D M T b n : reprojection D M T b n = (length (errors D M T b n), total (errors D M T b n)).
Proof.
  assert (TA : forall l m, total (l ++ m) = total l + total m).
  { induction l as [ | a l IH]; intros m; cbn [app total]; [ lra | rewrite IH; lra ]. }
  unfold reprojection, errors. induction n as [ | n IH]; [ reflexivity | ].
  rewrite seq_S, fold_left_app, IH, flat_map_app, TA, app_length. cbn [fold_left flat_map Nat.add]. rewrite app_nil_r.
  unfold add_error. destruct (corner (b_view b) n) as [y | ]; cbn [length total]; [ | f_equal; [ lia | lra ] ].
  destruct (omni_project D M (T (b_point b n))) as [[k | | | ] [ | ]]; cbn [length total fst snd]; f_equal; try lia; try lra.
  change (v2_norm (v2_sub y k)) with (dist y k). lra.
Qed.

(** ** The search *)
Section Search.
Variable solve_z : list v4 -> v4.
Variable pnp : list (v3 * v2) -> v3 -> v3.
Variable D : distortion.
Variable o : view.
(** The rows in the order they are tried *)
Definition trials (bs : list board) : list (board * nat * nat * nat) :=
  flat_map (fun b => match v_target (b_view b) with Some (rows, cols) => map (fun r => (b, rows, cols, r)) (seq 0 rows) | None => [] end) bs.
Definition try_row (s : search) (t : board * nat * nat * nat) : search :=
  let '(b, rows, cols, r) := t in row_step solve_z pnp D o b rows cols s r.
Definition trial_result (t : board * nat * nat * nat) : option (R * R) :=
  let '(b, rows, cols, r) := t in row_result solve_z pnp D o b rows cols r.
Lemma search_boards_eq : forall bs s, (forall b, In b bs -> v_target (b_view b) <> None) ->
  search_boards solve_z pnp D o bs s = Ok (fold_left try_row (trials bs) s).
Proof.
  induction bs as [ | b bs IH]; intros s H; [ reflexivity | ]. cbn [search_boards trials flat_map].
  pose proof (H b (or_introl eq_refl)) as Hb. destruct (v_target (b_view b)) as [[rows cols] | ]; [ | contradiction ].
  rewrite IH by (intros x Hx; apply H; right; exact Hx). rewrite fold_left_app. fold (trials bs). f_equal. f_equal.
  clear. revert s. induction (seq 0 rows) as [ | r l IH]; intros s; [ reflexivity | ]. cbn [map fold_left]. apply IH.
Qed.
Definition best_of (l : list (board * nat * nat * nat)) (s : search) : Prop :=
  if success s then (exists t, In t l /\ trial_result t = Some (gamma0 s, best s)) /\ best s < dbl_max /\
                    forall t g e, In t l -> trial_result t = Some (g, e) -> best s <= e
  else best s = dbl_max /\ gamma0 s = 0 /\ forall t g e, In t l -> trial_result t = Some (g, e) -> dbl_max <= e.
Lemma search_best : forall l, best_of l (fold_left try_row l (Search dbl_max 0 false)).
Proof.
  induction l as [ | t l IH] using rev_ind.
  - cbn [fold_left]. split; [ reflexivity | split; [ reflexivity | intros t g e [] ] ].
  - rewrite fold_left_app. cbn [fold_left]. set (s := fold_left try_row l (Search dbl_max 0 false)) in *.
    unfold try_row at 1. destruct t as [[[b rows] cols] r] eqn:Et. unfold row_step.
    assert (ET : row_result solve_z pnp D o b rows cols r = trial_result t) by (rewrite Et; reflexivity).
    rewrite ET, <- Et. clear Et ET b rows cols r.
    destruct (trial_result t) as [[g e] | ] eqn:E.
    + destruct (ltb_spec e (best s)) as [[-> Lt] | [-> Le]].
      * unfold best_of in *. cbn [success best gamma0]. split; [ exists t; split; [ apply in_or_app; right; left; reflexivity | exact E ] | ].
        destruct (success s).
        -- destruct IH as (_ & B & M). split; [ lra | ]. intros t' g' e' I E'. apply in_app_or in I as [I | [<- | []]].
           ++ pose proof (M t' g' e' I E'). lra.
           ++ assert (e' = e) by congruence. lra.
        -- destruct IH as (B & _ & M). split; [ lra | ]. intros t' g' e' I E'. apply in_app_or in I as [I | [<- | []]].
           ++ pose proof (M t' g' e' I E'). lra.
           ++ assert (e' = e) by congruence. lra.
      * unfold best_of in *. destruct (success s).
        -- destruct IH as ((t0 & I0 & E0) & B & M). split; [ exists t0; split; [ apply in_or_app; left; exact I0 | exact E0 ] | ].
           split; [ exact B | ]. intros t' g' e' I E'. apply in_app_or in I as [I | [<- | []]]; [ exact (M t' g' e' I E') | ].
           assert (e' = e) by congruence. lra.
        -- destruct IH as (B & G & M). split; [ exact B | split; [ exact G | ] ].
           intros t' g' e' I E'. apply in_app_or in I as [I | [<- | []]]; [ exact (M t' g' e' I E') | ].
           assert (e' = e) by congruence. lra.
    + unfold best_of in *. destruct (success s).
      * destruct IH as ((t0 & I0 & E0) & B & M). split; [ exists t0; split; [ apply in_or_app; left; exact I0 | exact E0 ] | ].
        split; [ exact B | ]. intros t' g' e' I E'. apply in_app_or in I as [I | [<- | []]]; [ exact (M t' g' e' I E') | congruence ].
      * destruct IH as (B & G & M). split; [ exact B | split; [ exact G | ] ].
        intros t' g' e' I E'. apply in_app_or in I as [I | [<- | []]]; [ exact (M t' g' e' I E') | congruence ].
Qed.
End Search.
