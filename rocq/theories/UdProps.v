(** * C102: undistorting images of a pinhole camera *)
From Flocq Require Import Core.
From Coq Require Import Reals ZArith List Lra Lia.
From Verif Require Import KinModel UdModel UdSpec UdProofs.
Import ListNotations.
Local Open Scope R_scope.

(** A pixel (row i, column j) of the new camera [K], turned by [Rm], is read where the
    original camera sees the direction that the new camera sees at that pixel. *)
Theorem C102_map : forall distort c Rm K i j X t, m3_det (m3_mul K Rm) <> 0 -> t <> 0 -> x2 X <> 0 ->
  m3_vec K (m3_vec Rm X) = V3 (t * INR j) (t * INR i) t -> source distort c Rm K i j = seen_at distort c X.
Proof.
  intros distort c Rm K i j X t D T W E. apply (source_ray distort c Rm K i j X t D T W). rewrite <- E.
  destruct X as [a b w]. unfold m3_vec, m3_mul, v3_dot, m3_row0, m3_row1, m3_row2, m3_col0, m3_col1, m3_col2. cbn [x0 x1 x2 m00 m01 m02 m10 m11 m12 m20 m21 m22]. f_equal; ring.
Qed.
Print Assumptions C102_map.

(** The map sends every pixel of the ideal camera, to a 64th of a pixel, to where the
    original camera sees the ray of that pixel, within +-32767 pixels. *)
Theorem C102_consistent : forall distort undistort c alpha scale i j,
  let u := set_ideal distort undistort c alpha scale in
  let p := seen_at distort c (ray_of (ideal u) (INR j) (INR i)) in
  fu (ideal u) <> 0 -> fv (ideal u) <> 0 -> -32768 <= fst p <= 32767 -> -32768 <= snd p <= 32767 ->
  within (1 / 64) (position (mapping u i j)) p.
Proof.
  intros distort undistort c alpha scale i j. cbv zeta. unfold set_ideal, ray_of. cbv zeta. cbn [ideal mapping fu fv cu cv]. intros FX FY U V.
  rewrite optimal_shape. rewrite source_diag by assumption. apply encode_within; assumption.
Qed.
Print Assumptions C102_consistent.

(** With alpha = 1 no sample of the original image is lost: all lie in the new one, and
    the new one is no larger than that. *)
Theorem C102_alpha_one : forall distort undistort c scale,
  let u := set_ideal distort undistort c 1 scale in
  let at_ s := sample undistort c (fst s) (snd s) in
  spot_ok undistort c -> (1 < ru (ideal u))%Z -> (1 < rv (ideal u))%Z ->
  (exists s s', is_sample s /\ is_sample s' /\ fst (at_ s) < fst (at_ s')) -> (exists s s', is_sample s /\ is_sample s' /\ snd (at_ s) < snd (at_ s')) ->
  (forall s, is_sample s -> let q := pixel_of (ideal u) (at_ s) in 0 <= fst q <= IZR (ru (ideal u) - 1) /\ 0 <= snd q <= IZR (rv (ideal u) - 1)) /\
  (exists s, is_sample s /\ fst (pixel_of (ideal u) (at_ s)) = 0) /\ (exists s, is_sample s /\ fst (pixel_of (ideal u) (at_ s)) = IZR (ru (ideal u) - 1)) /\
  (exists s, is_sample s /\ snd (pixel_of (ideal u) (at_ s)) = 0) /\ (exists s, is_sample s /\ snd (pixel_of (ideal u) (at_ s)) = IZR (rv (ideal u) - 1)).
Proof.
  intros distort undistort c scale. cbv zeta. unfold set_ideal, pixel_of. cbv zeta. cbn [ideal ru rv fu fv cu cv fst snd].
  set (W := Ztrunc (IZR (ru c) * scale)). set (H := Ztrunc (IZR (rv c) * scale)).
  intros SM W1 H1 (a & a' & A & A' & AL) (b & b' & B & B' & BL).
  assert (NZ : (W * H <> 0)%Z) by nia. destruct (optimal_at undistort c 1 W H _ NZ (or_introl (conj eq_refl eq_refl))) as (-> & -> & -> & ->).
  destruct (outer_facts undistort c SM) as (OA & (a1 & A1 & A1') & (a2 & A2 & A2') & (a3 & A3 & A3') & (a4 & A4 & A4')).
  unfold spot in *. destruct (snd (rectangles undistort c)) as [ox oy ow oh]. cbn [rx ry rw rh] in *.
  assert (OW : 0 < ow) by (pose proof (OA _ A); pose proof (OA _ A'); lra). assert (OH : 0 < oh) by (pose proof (OA _ B); pose proof (OA _ B'); lra).
  assert (NW : 0 <= IZR (W - 1)) by (apply IZR_le; lia). assert (NH : 0 <= IZR (H - 1)) by (apply IZR_le; lia).
  split; [ | split; [ | split; [ | split ] ] ].
  - intros s S. destruct (OA s S) as [X Y]. split; apply axis_in; assumption.
  - exists a1. split; [ exact A1 | rewrite A1'; apply axis_start ].
  - exists a2. split; [ exact A2 | rewrite A2'; apply axis_end; exact OW ].
  - exists a3. split; [ exact A3 | rewrite A3'; apply axis_start ].
  - exists a4. split; [ exact A4 | rewrite A4'; apply axis_end; exact OH ].
Qed.
Print Assumptions C102_alpha_one.

(** With alpha = 0 the new image shows nothing from beyond the samples on the border of
    the original one: they lie on its border or outside it. *)
Theorem C102_alpha_zero : forall distort undistort c scale,
  let u := set_ideal distort undistort c 0 scale in
  let at_ s := sample undistort c (fst s) (snd s) in
  spot_ok undistort c -> (1 < ru (ideal u))%Z -> (1 < rv (ideal u))%Z ->
  (forall s s', is_sample s -> is_sample s' -> fst s = 0%Z -> fst s' = 8%Z -> fst (at_ s) < fst (at_ s')) ->
  (forall s s', is_sample s -> is_sample s' -> snd s = 0%Z -> snd s' = 8%Z -> snd (at_ s) < snd (at_ s')) ->
  forall s, is_sample s -> let q := pixel_of (ideal u) (at_ s) in
    (fst s = 0%Z -> fst q <= 0) /\ (fst s = 8%Z -> IZR (ru (ideal u) - 1) <= fst q) /\
    (snd s = 0%Z -> snd q <= 0) /\ (snd s = 8%Z -> IZR (rv (ideal u) - 1) <= snd q).
Proof.
  intros distort undistort c scale. cbv zeta. unfold set_ideal, pixel_of. cbv zeta. cbn [ideal ru rv fu fv cu cv fst snd].
  set (W := Ztrunc (IZR (ru c) * scale)). set (H := Ztrunc (IZR (rv c) * scale)).
  intros SM W1 H1 HX HY.
  assert (NZ : (W * H <> 0)%Z) by nia. destruct (optimal_at undistort c 0 W H _ NZ (or_intror (conj eq_refl eq_refl))) as (-> & -> & -> & ->).
  destruct (inner_facts undistort c SM) as (OA & (a1 & A1 & A1z & A1') & (a2 & A2 & A2z & A2') & (a3 & A3 & A3z & A3') & (a4 & A4 & A4z & A4')).
  unfold spot in *. destruct (fst (rectangles undistort c)) as [ox oy ow oh]. cbn [rx ry rw rh] in *.
  assert (OW : 0 < ow) by (pose proof (HX a1 a2 A1 A2 A1z A2z); lra). assert (OH : 0 < oh) by (pose proof (HY a3 a4 A3 A4 A3z A4z); lra).
  assert (NW : 0 <= IZR (W - 1)) by (apply IZR_le; lia). assert (NH : 0 <= IZR (H - 1)) by (apply IZR_le; lia).
  intros s S. destruct (OA s S) as (X0 & X8 & Y0 & Y8). split; [ | split; [ | split ] ]; intros E.
  - apply axis_low; [ exact NW | exact OW | apply X0; exact E ].
  - apply axis_high; [ exact NW | exact OW | apply X8; exact E ].
  - apply axis_low; [ exact NH | exact OH | apply Y0; exact E ].
  - apply axis_high; [ exact NH | exact OH | apply Y8; exact E ].
Qed.
Print Assumptions C102_alpha_zero.

(** A camera without distortion and unit scale: the image is not left as it is but
    stretched by W/(W-1) and H/(H-1), whatever alpha is. *)
Theorem C102_plain : forall c alpha i j, spot_ok no_distortion c -> 0 < fu c -> 0 < fv c ->
  (1 < ru c <= 32767)%Z -> (1 < rv c <= 32767)%Z -> INR j <= IZR (ru c) - 1 -> INR i <= IZR (rv c) - 1 ->
  within (1 / 64) (position (mapping (set_ideal no_distortion no_distortion c alpha 1) i j))
         (INR j * (IZR (ru c) / (IZR (ru c) - 1)), INR i * (IZR (rv c) / (IZR (rv c) - 1))).
Proof.
  intros c alpha i j SM FU FV W H J I. unfold set_ideal. cbv zeta. cbn [mapping]. rewrite !Rmult_1_r, !Ztrunc_IZR.
  assert (W2 : 2 <= IZR (ru c) <= 32767) by (split; apply IZR_le; lia). assert (H2 : 2 <= IZR (rv c) <= 32767) by (split; apply IZR_le; lia).
  set (w := IZR (ru c)) in *. set (h := IZR (rv c)) in *.
  assert (K : optimal_matrix no_distortion c alpha (ru c) (rv c) = M3 (fu c * ((w - 1) / w)) 0 (cu c * ((w - 1) / w)) 0 (fv c * ((h - 1) / h)) (cv c * ((h - 1) / h)) 0 0 1).
  { unfold optimal_matrix. rewrite (plain_rects c SM FU FV) by lia. cbv zeta. cbn [fst snd rx ry rw rh]. destruct (Z.eqb_spec (ru c * rv c) 0) as [ E | _ ]; [ nia | ].
    rewrite !minus_IZR. fold w h. f_equal; field; lra. }
  rewrite K. clear K. rewrite source_diag.
  2: { apply Rmult_integral_contrapositive_currified; [ lra | ]. apply Rmult_integral_contrapositive_currified; [ lra | apply Rinv_neq_0_compat; lra ]. }
  2: { apply Rmult_integral_contrapositive_currified; [ lra | ]. apply Rmult_integral_contrapositive_currified; [ lra | apply Rinv_neq_0_compat; lra ]. }
  assert (E : seen_at no_distortion c (V3 ((INR j - cu c * ((w - 1) / w)) / (fu c * ((w - 1) / w))) ((INR i - cv c * ((h - 1) / h)) / (fv c * ((h - 1) / h))) 1) = (INR j * (w / (w - 1)), INR i * (h / (h - 1)))).
  { unfold seen_at, no_distortion. cbn [fst snd x0 x1 x2]. f_equal; field; lra. }
  rewrite E. pose proof (pos_INR j) as J0. pose proof (pos_INR i) as I0.
  assert (B : forall n m, 0 <= n -> n <= m - 1 -> 2 <= m <= 32767 -> -32768 <= n * (m / (m - 1)) <= 32767).
  { intros n m N0 NM M. assert (0 <= m / (m - 1)) by (apply Rmult_le_pos; [ lra | left; apply Rinv_0_lt_compat; lra ]).
    assert (0 <= n * (m / (m - 1))) by (apply Rmult_le_pos; assumption). split; [ lra | ].
    apply Rle_trans with ((m - 1) * (m / (m - 1))); [ apply Rmult_le_compat_r; assumption | ]. replace ((m - 1) * (m / (m - 1))) with m by (field; lra). lra. }
  apply encode_within; cbn [fst snd]; apply B; assumption.
Qed.
Print Assumptions C102_plain.

(** So alpha = 0 does not make all pixels valid: the last column is read one column
    beyond the image, even without distortion. *)
Theorem C102_valid_refuted : forall c i j, spot_ok no_distortion c -> 0 < fu c -> 0 < fv c ->
  (1 < ru c <= 32767)%Z -> (1 < rv c <= 32767)%Z -> INR j = IZR (ru c) - 1 -> INR i <= IZR (rv c) - 1 ->
  IZR (ru c) - 1 < fst (position (mapping (set_ideal no_distortion no_distortion c 0 1) i j)).
Proof.
  intros c i j SM FU FV W H J I. destruct (C102_plain c 0 i j SM FU FV W H ltac:(lra) I) as [P _]. cbn [fst] in P. rewrite J in P.
  assert (2 <= IZR (ru c)) by (apply IZR_le; lia). replace ((IZR (ru c) - 1) * (IZR (ru c) / (IZR (ru c) - 1))) with (IZR (ru c)) in P by (field; lra).
  apply Rabs_le_inv in P. lra.
Qed.
Print Assumptions C102_valid_refuted.

(** Positions of 32768 pixels or more wrap around: a pixel that should be outside the
    image is read from inside. *)
Theorem C102_wrap_refuted : forall x y, 32768 <= x <= 65535 -> Rabs (fst (position (encode (x, y))) - (x - 65536)) <= 1 / 64.
Proof.
  intros x y H. unfold position, encode. cbv zeta. cbn [e_x e_frac fst snd]. pose proof (Znearest_half (fun x => negb (Z.even x)) (x * 32)) as N. unfold to_int at 1 3. cbv zeta.
  set (n := ZnearestE (x * 32)) in *. apply Rabs_le_inv in N.
  assert (A : (1048575 < n)%Z) by (apply lt_IZR; lra). assert (B : (n < 2097121)%Z) by (apply lt_IZR; lra).
  destruct (Z.leb_spec INT_MIN n) as [ _ | C ]; [ | unfold INT_MIN in C; lia ]. destruct (Z.leb_spec n 2147483647) as [ _ | C ]; [ | lia ]. cbn [andb].
  rewrite Z.shiftr_div_pow2 by lia. change (2 ^ 5)%Z with 32%Z. set (m := to_int (y * 32)). clearbody m.
  assert (LM : Z.land m 31 = (m mod 32)%Z) by (exact (Z.land_ones m 5 ltac:(lia))). assert (LN : Z.land n 31 = (n mod 32)%Z) by (exact (Z.land_ones n 5 ltac:(lia))). rewrite LM, LN.
  pose proof (Z.mod_pos_bound m 32 ltac:(lia)). pose proof (Z.mod_pos_bound n 32 ltac:(lia)). unfold to_ushort. rewrite (Z.mod_small _ 65536) by lia.
  replace ((m mod 32 * 32 + n mod 32) mod 32)%Z with (n mod 32)%Z by (rewrite Z.add_comm, Z.mod_add by lia; symmetry; apply Z.mod_small; lia).
  assert (D : (32768 <= n / 32 <= 65535)%Z) by (split; [ apply Z.div_le_lower_bound; lia | apply Z.lt_succ_r; apply Z.div_lt_upper_bound; lia ]).
  assert (S : to_short (n / 32) = (n / 32 - 65536)%Z). { unfold to_short. replace (n / 32 + 32768)%Z with (n / 32 - 32768 + 1 * 65536)%Z by lia. rewrite Z.mod_add by lia. rewrite Z.mod_small by lia. lia. }
  rewrite S, minus_IZR. assert (E : IZR (n / 32) + IZR (n mod 32) / 32 = IZR n / 32). { rewrite (Z.div_mod n 32) at 3 by lia. rewrite plus_IZR, mult_IZR. field. }
  apply Rabs_le. lra.
Qed.
Print Assumptions C102_wrap_refuted.

(** A camera of 640 x 480 pixels. *)
Definition cam0 : camera := Camera 400 400 320 240 640 480.
Lemma cam0_ok : spot_ok no_distortion cam0.
Proof.
  intros s [X Y]. destruct (quot_steps _ 640 X ltac:(lia)) as [A B]. destruct (quot_steps _ 480 Y ltac:(lia)) as [C D]. apply IZR_le in A, B, C, D.
  unfold sample, no_distortion. cbv zeta. cbn [fst snd cam0 fu fv cu cv ru rv]. unfold FLT_MAX. split; apply Rabs_le; lra.
Qed.
Example C102_ex : within (1 / 64) (position (mapping (set_ideal no_distortion no_distortion cam0 0 1) 0 639)) (640, 0) /\
  (forall s, is_sample s -> fst s = 8%Z -> IZR (640 - 1) <= fst (pixel_of (ideal (set_ideal no_distortion no_distortion cam0 0 1)) (sample no_distortion cam0 (fst s) (snd s)))).
Proof.
  assert (T : forall n, Ztrunc (IZR n * 1) = n) by (intros n; rewrite Rmult_1_r; apply Ztrunc_IZR).
  split.
  - assert (J : INR 639 = 639) by (rewrite INR_IZR_INZ; reflexivity).
    pose proof (C102_plain cam0 0 0 639 cam0_ok) as P. cbn [cam0 fu fv ru rv] in P. fold cam0 in P. rewrite J in P. change (INR 0) with 0 in P.
    replace (639 * (640 / (640 - 1))) with 640 in P by (field; lra). rewrite Rmult_0_l in P. apply P; try lra; try lia.
  - intros s S E. pose proof (C102_alpha_zero no_distortion no_distortion cam0 1) as P. cbv zeta in P.
    assert (RU : ru (ideal (set_ideal no_distortion no_distortion cam0 0 1)) = 640%Z) by (exact (T 640%Z)).
    assert (RV : rv (ideal (set_ideal no_distortion no_distortion cam0 0 1)) = 480%Z) by (exact (T 480%Z)).
    rewrite RU, RV in P. refine (proj1 (proj2 (P cam0_ok _ _ _ _ s S)) E); [ lia | lia | | ].
    + intros a b _ _ A B. unfold sample, no_distortion. cbv zeta. cbn [fst snd cam0 fu fv cu cv ru rv]. rewrite A, B. change (Z.quot (0 * 640) 8) with 0%Z. change (Z.quot (8 * 640) 8) with 640%Z. lra.
    + intros a b _ _ A B. unfold sample, no_distortion. cbv zeta. cbn [fst snd cam0 fu fv cu cv ru rv]. rewrite A, B. change (Z.quot (0 * 480) 8) with 0%Z. change (Z.quot (8 * 480) 8) with 480%Z. lra.
Qed.
