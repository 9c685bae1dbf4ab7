(** * Lemmas about the undistortion map *)
From Flocq Require Import Core.
From Coq Require Import Reals ZArith List Lra Lia.
From Verif Require Import KinModel UdModel UdSpec.
Import ListNotations.
Local Open Scope R_scope.

Lemma walk_val s t j : walk s t j = s + INR j * t.
Proof. induction j as [ | j IH]; [ cbn [walk INR]; ring | ]. change (walk s t j + t = s + INR (S j) * t). rewrite IH, S_INR. ring. Qed.
Lemma v3_eq a b c a' b' c' : V3 a b c = V3 a' b' c' -> a = a' /\ b = b' /\ c = c'.
Proof. intros E. split; [ exact (f_equal x0 E) | split; [ exact (f_equal x1 E) | exact (f_equal x2 E) ] ]. Qed.
Lemma inverse3_vec A X Y : m3_det A <> 0 -> m3_vec A X = Y -> m3_vec (inverse3 A) Y = X.
Proof.
  intros D <-. destruct X as [a b c]. unfold m3_vec, inverse3, v3_dot, m3_row0, m3_row1, m3_row2. cbn [x0 x1 x2 m00 m01 m02 m10 m11 m12 m20 m21 m22].
  unfold m3_det in *. f_equal; field; exact D.
Qed.
Lemma source_ray distort c Rm K i j X t : m3_det (m3_mul K Rm) <> 0 -> t <> 0 -> x2 X <> 0 ->
  m3_vec (m3_mul K Rm) X = V3 (t * INR j) (t * INR i) t -> source distort c Rm K i j = seen_at distort c X.
Proof.
  intros D T W E. pose proof (inverse3_vec _ _ _ D E) as I. unfold source, seen_at. cbv zeta. rewrite !walk_val.
  set (B := inverse3 (m3_mul K Rm)) in *. destruct X as [a b w]. unfold m3_vec, v3_dot, m3_row0, m3_row1, m3_row2 in I. cbn [x0 x1 x2] in *.
  destruct (v3_eq _ _ _ _ _ _ I) as (I0 & I1 & I2). clear I.
  assert (E0 : INR i * m01 B + m02 B + INR j * m00 B = a / t) by (rewrite <- I0; field; exact T).
  assert (E1 : INR i * m11 B + m12 B + INR j * m10 B = b / t) by (rewrite <- I1; field; exact T).
  assert (E2 : INR i * m21 B + m22 B + INR j * m20 B = w / t) by (rewrite <- I2; field; exact T).
  rewrite E0, E1, E2.
  replace (a / t * (1 / (w / t))) with (a / w) by (field; split; assumption).
  replace (b / t * (1 / (w / t))) with (b / w) by (field; split; assumption). reflexivity.
Qed.

(** ** Minima and maxima *)
Lemma fold_min_le l : forall b, fold_left Rmin l b <= b /\ forall x, In x l -> fold_left Rmin l b <= x.
Proof.
  induction l as [ | a l IH]; intros b; cbn [fold_left]; [ split; [ lra | contradiction ] | ].
  destruct (IH (Rmin b a)) as [P Q]. pose proof (Rmin_l b a). pose proof (Rmin_r b a). split; [ lra | ]. intros x [ -> | I ]; [ lra | apply Q; exact I ].
Qed.
Lemma fold_min_in l : forall b, fold_left Rmin l b = b \/ In (fold_left Rmin l b) l.
Proof.
  induction l as [ | a l IH]; intros b; cbn [fold_left]; [ left; reflexivity | ].
  destruct (IH (Rmin b a)) as [E | I]; [ | right; right; exact I ]. rewrite E. destruct (Rle_dec b a) as [ H | H ].
  - left. apply Rmin_left. exact H.
  - right. left. symmetry. apply Rmin_right. lra.
Qed.
Lemma fold_max_ge l : forall b, b <= fold_left Rmax l b /\ forall x, In x l -> x <= fold_left Rmax l b.
Proof.
  induction l as [ | a l IH]; intros b; cbn [fold_left]; [ split; [ lra | contradiction ] | ].
  destruct (IH (Rmax b a)) as [P Q]. pose proof (Rmax_l b a). pose proof (Rmax_r b a). split; [ lra | ]. intros x [ -> | I ]; [ lra | apply Q; exact I ].
Qed.
Lemma fold_max_in l : forall b, fold_left Rmax l b = b \/ In (fold_left Rmax l b) l.
Proof.
  induction l as [ | a l IH]; intros b; cbn [fold_left]; [ left; reflexivity | ].
  destruct (IH (Rmax b a)) as [E | I]; [ | right; right; exact I ]. rewrite E. destruct (Rle_dec b a) as [ H | H ].
  - right. left. symmetry. apply Rmax_right. exact H.
  - left. apply Rmax_left. lra.
Qed.
Lemma least_le l x : In x l -> least l <= x.
Proof. apply fold_min_le. Qed.
Lemma most_ge l x : In x l -> x <= most l.
Proof. apply fold_max_ge. Qed.
Lemma least_in l : (exists x, In x l) -> (forall x, In x l -> Rabs x <= FLT_MAX) -> In (least l) l.
Proof.
  intros [x X] B. destruct (fold_min_in l FLT_MAX) as [E | I]; [ | exact I ]. unfold least. rewrite E.
  pose proof (least_le l x X) as L. unfold least in L. rewrite E in L. specialize (B x X). apply Rabs_le_inv in B. replace FLT_MAX with x by lra. exact X.
Qed.
Lemma most_in l : (exists x, In x l) -> (forall x, In x l -> Rabs x <= FLT_MAX) -> In (most l) l.
Proof.
  intros [x X] B. destruct (fold_max_in l (- FLT_MAX)) as [E | I]; [ | exact I ]. unfold most. rewrite E.
  pose proof (most_ge l x X) as L. unfold most in L. rewrite E in L. specialize (B x X). apply Rabs_le_inv in B. replace (- FLT_MAX) with x by lra. exact X.
Qed.
Lemma in_grid s : In s grid <-> is_sample s.
Proof.
  destruct s as [x y]. unfold grid, is_sample. rewrite in_flat_map. cbn [fst snd].
  assert (L : forall z, In z line <-> (0 <= z <= 8)%Z).
  { intros z. unfold line. cbn [In]. split; [ lia | ]. intros H. lia. }
  split.
  - intros (y' & Y & M). apply in_map_iff in M. destruct M as (x' & E & X). assert (x' = x) by congruence. assert (y' = y) by congruence. subst. apply L in X. apply L in Y. split; assumption.
  - intros [X Y]. exists y. split; [ apply L; exact Y | ]. apply in_map_iff. exists x. split; [ reflexivity | apply L; exact X ].
Qed.
Lemma in_pick (g : Z * Z -> R) b r : In r (map g (filter b grid)) <-> exists s, is_sample s /\ b s = true /\ g s = r.
Proof.
  rewrite in_map_iff. split.
  - intros (s & E & I). apply filter_In in I. destruct I as [I B]. exists s. split; [ apply in_grid; exact I | split; assumption ].
  - intros (s & I & B & E). exists s. split; [ exact E | ]. apply filter_In. split; [ apply in_grid; exact I | exact B ].
Qed.
Section Rects.
  Variables (undistort : pt -> pt) (c : camera).
  Definition spot (s : Z * Z) : pt := sample undistort c (fst s) (snd s).
  Hypothesis small : forall s, is_sample s -> Rabs (fst (spot s)) <= FLT_MAX /\ Rabs (snd (spot s)) <= FLT_MAX.
  Variable (f : pt -> R).
  Hypothesis F : f = fst \/ f = snd.
  Definition picked (b : Z * Z -> bool) : list R := map (fun s => f (sample undistort c (fst s) (snd s))) (filter b grid).
  Lemma picked_small b r : In r (picked b) -> Rabs r <= FLT_MAX.
  Proof. unfold picked. intros I. apply in_pick in I. destruct I as (s & S & _ & <-). destruct F as [ -> | -> ]; apply (small s S). Qed.
  Lemma least_picked b : (exists s, is_sample s /\ b s = true) ->
    (exists s, is_sample s /\ b s = true /\ f (spot s) = least (picked b)) /\ forall s, is_sample s -> b s = true -> least (picked b) <= f (spot s).
  Proof.
    intros (s & S & B). split.
    - destruct (proj1 (in_pick (fun s => f (spot s)) b (least (picked b)))) as (z & Z1 & Z2 & Z3).
      + apply least_in; [ | apply picked_small ]. exists (f (spot s)). apply in_pick. exists s. split; [ exact S | split; [ exact B | reflexivity ] ].
      + exists z. split; [ exact Z1 | split; [ exact Z2 | exact Z3 ] ].
    - intros z Z1 Z2. apply least_le. apply in_pick. exists z. split; [ exact Z1 | split; [ exact Z2 | reflexivity ] ].
  Qed.
  Lemma most_picked b : (exists s, is_sample s /\ b s = true) ->
    (exists s, is_sample s /\ b s = true /\ f (spot s) = most (picked b)) /\ forall s, is_sample s -> b s = true -> f (spot s) <= most (picked b).
  Proof.
    intros (s & S & B). split.
    - destruct (proj1 (in_pick (fun s => f (spot s)) b (most (picked b)))) as (z & Z1 & Z2 & Z3).
      + apply most_in; [ | apply picked_small ]. exists (f (spot s)). apply in_pick. exists s. split; [ exact S | split; [ exact B | reflexivity ] ].
      + exists z. split; [ exact Z1 | split; [ exact Z2 | exact Z3 ] ].
    - intros z Z1 Z2. apply most_ge. apply in_pick. exists z. split; [ exact Z1 | split; [ exact Z2 | reflexivity ] ].
  Qed.
End Rects.

(** ** Fixed-point entries *)
Lemma encode_axis u : -32768 <= u <= 32767 -> let n := to_int (u * 32) in
  to_short (Z.shiftr n 5) = (n / 32)%Z /\ Rabs (IZR n / 32 - u) <= 1 / 64.
Proof.
  intros H. cbv zeta. pose proof (Znearest_half (fun x => negb (Z.even x)) (u * 32)) as N. unfold to_int. cbv zeta.
  set (n := ZnearestE (u * 32)) in *. apply Rabs_le_inv in N.
  assert (A : (-1048577 < n)%Z) by (apply lt_IZR; lra). assert (B : (n < 1048545)%Z) by (apply lt_IZR; lra).
  destruct (Z.leb_spec INT_MIN n) as [ _ | C ]; [ | unfold INT_MIN in C; lia ]. destruct (Z.leb_spec n 2147483647) as [ _ | C ]; [ | lia ]. cbn [andb].
  split.
  - rewrite Z.shiftr_div_pow2 by lia. change (2 ^ 5)%Z with 32%Z. unfold to_short.
    assert (-32768 <= n / 32 <= 32767)%Z by (split; [ apply Z.div_le_lower_bound; lia | apply Z.lt_succ_r; apply Z.div_lt_upper_bound; lia ]).
    rewrite Z.mod_small by lia. lia.
  - apply Rabs_le. lra.
Qed.
Lemma encode_within p : -32768 <= fst p <= 32767 -> -32768 <= snd p <= 32767 -> within (1 / 64) (position (encode p)) p.
Proof.
  intros U V. destruct (encode_axis _ U) as [U1 U2]. destruct (encode_axis _ V) as [V1 V2]. unfold within, position, encode. cbv zeta. cbn [e_x e_y e_frac fst snd]. rewrite U1, V1.
  set (m := to_int (fst p * 32)) in *. set (n := to_int (snd p * 32)) in *. clearbody m n.
  assert (LM : Z.land m 31 = (m mod 32)%Z) by (exact (Z.land_ones m 5 ltac:(lia))). assert (LN : Z.land n 31 = (n mod 32)%Z) by (exact (Z.land_ones n 5 ltac:(lia))). rewrite LM, LN.
  pose proof (Z.mod_pos_bound m 32 ltac:(lia)). pose proof (Z.mod_pos_bound n 32 ltac:(lia)). unfold to_ushort. rewrite (Z.mod_small _ 65536) by lia.
  replace ((n mod 32 * 32 + m mod 32) mod 32)%Z with (m mod 32)%Z by (rewrite Z.add_comm, Z.mod_add by lia; symmetry; apply Z.mod_small; lia).
  replace ((n mod 32 * 32 + m mod 32) / 32)%Z with (n mod 32)%Z by (rewrite Z.div_add_l by lia; rewrite (Z.div_small (m mod 32)) by lia; lia).
  assert (S : forall k, IZR (k / 32) + IZR (k mod 32) / 32 = IZR k / 32).
  { intros k. rewrite (Z.div_mod k 32) at 3 by lia. rewrite plus_IZR, mult_IZR. field. }
  rewrite !S. split; assumption.
Qed.

(** ** Camera matrices *)
Lemma source_diag distort c fx fy cx cy i j : fx <> 0 -> fy <> 0 ->
  source distort c m3_I (M3 fx 0 cx 0 fy cy 0 0 1) i j = seen_at distort c (V3 ((INR j - cx) / fx) ((INR i - cy) / fy) 1).
Proof.
  intros FX FY. apply (source_ray _ _ _ _ _ _ _ 1).
  - unfold m3_mul, m3_I, m3_det, v3_dot, m3_row0, m3_row1, m3_row2, m3_col0, m3_col1, m3_col2. cbn [x0 x1 x2 m00 m01 m02 m10 m11 m12 m20 m21 m22].
    match goal with |- ?e <> 0 => replace e with (fx * fy) by ring end. apply Rmult_integral_contrapositive_currified; assumption.
  - lra.
  - cbn [x2]. lra.
  - unfold m3_vec, m3_mul, m3_I, v3_dot, m3_row0, m3_row1, m3_row2, m3_col0, m3_col1, m3_col2. cbn [x0 x1 x2 m00 m01 m02 m10 m11 m12 m20 m21 m22].
    f_equal; field; repeat split; assumption.
Qed.
Lemma optimal_shape undistort c alpha w h : let K := optimal_matrix undistort c alpha w h in K = M3 (m00 K) 0 (m02 K) 0 (m11 K) (m12 K) 0 0 1.
Proof. reflexivity. Qed.
Lemma rectangles_picked undistort c :
  rectangles undistort c =
  (Rect (most (picked undistort c fst (fun s => Z.eqb (fst s) 0))) (most (picked undistort c snd (fun s => Z.eqb (snd s) 0)))
        (least (picked undistort c fst (fun s => Z.eqb (fst s) 8)) - most (picked undistort c fst (fun s => Z.eqb (fst s) 0)))
        (least (picked undistort c snd (fun s => Z.eqb (snd s) 8)) - most (picked undistort c snd (fun s => Z.eqb (snd s) 0))),
   Rect (least (picked undistort c fst (fun _ => true))) (least (picked undistort c snd (fun _ => true)))
        (most (picked undistort c fst (fun _ => true)) - least (picked undistort c fst (fun _ => true)))
        (most (picked undistort c snd (fun _ => true)) - least (picked undistort c snd (fun _ => true)))).
Proof. unfold rectangles, picked. reflexivity. Qed.
Lemma outer_facts undistort c : spot_ok undistort c -> let o := snd (rectangles undistort c) in let at_ := spot undistort c in
  (forall s, is_sample s -> rx o <= fst (at_ s) <= rx o + rw o /\ ry o <= snd (at_ s) <= ry o + rh o) /\
  (exists s, is_sample s /\ fst (at_ s) = rx o) /\ (exists s, is_sample s /\ fst (at_ s) = rx o + rw o) /\
  (exists s, is_sample s /\ snd (at_ s) = ry o) /\ (exists s, is_sample s /\ snd (at_ s) = ry o + rh o).
Proof.
  intros SM. cbv zeta. assert (T : exists s, is_sample s /\ (fun _ : Z * Z => true) s = true) by (exists (0, 0)%Z; split; [ split; cbn; lia | reflexivity ]).
  destruct (least_picked undistort c SM fst (or_introl eq_refl) (fun _ => true) T) as [(p & P & _ & PE) PL].
  destruct (most_picked undistort c SM fst (or_introl eq_refl) (fun _ => true) T) as [(q & Q & _ & QE) QL].
  destruct (least_picked undistort c SM snd (or_intror eq_refl) (fun _ => true) T) as [(r & R0 & _ & RE) RL].
  destruct (most_picked undistort c SM snd (or_intror eq_refl) (fun _ => true) T) as [(s & S0 & _ & SE) SL].
  rewrite rectangles_picked. cbn [fst snd rx ry rw rh].
  split; [ | split; [ | split; [ | split ] ] ].
  - intros z Z. specialize (PL z Z eq_refl). specialize (QL z Z eq_refl). specialize (RL z Z eq_refl). specialize (SL z Z eq_refl). split; split; lra.
  - exists p. split; [ exact P | lra ].
  - exists q. split; [ exact Q | lra ].
  - exists r. split; [ exact R0 | lra ].
  - exists s. split; [ exact S0 | lra ].
Qed.
Lemma inner_facts undistort c : spot_ok undistort c -> let o := fst (rectangles undistort c) in let at_ := spot undistort c in
  (forall s, is_sample s -> (fst s = 0%Z -> fst (at_ s) <= rx o) /\ (fst s = 8%Z -> rx o + rw o <= fst (at_ s)) /\
     (snd s = 0%Z -> snd (at_ s) <= ry o) /\ (snd s = 8%Z -> ry o + rh o <= snd (at_ s))) /\
  (exists s, is_sample s /\ fst s = 0%Z /\ fst (at_ s) = rx o) /\ (exists s, is_sample s /\ fst s = 8%Z /\ fst (at_ s) = rx o + rw o) /\
  (exists s, is_sample s /\ snd s = 0%Z /\ snd (at_ s) = ry o) /\ (exists s, is_sample s /\ snd s = 8%Z /\ snd (at_ s) = ry o + rh o).
Proof.
  intros SM. cbv zeta.
  assert (T : forall f : Z * Z -> Z, f = fst \/ f = snd -> forall k, (k = 0 \/ k = 8)%Z -> exists s, is_sample s /\ Z.eqb (f s) k = true).
  { intros f [ -> | -> ] k K; exists (k, k); (split; [ split; cbn [fst snd]; lia | apply Z.eqb_refl ]). }
  destruct (most_picked undistort c SM fst (or_introl eq_refl) (fun s => Z.eqb (fst s) 0) (T fst (or_introl eq_refl) 0%Z (or_introl eq_refl))) as [(p & P & P2 & PE) PL].
  destruct (least_picked undistort c SM fst (or_introl eq_refl) (fun s => Z.eqb (fst s) 8) (T fst (or_introl eq_refl) 8%Z (or_intror eq_refl))) as [(q & Q & Q2 & QE) QL].
  destruct (most_picked undistort c SM snd (or_intror eq_refl) (fun s => Z.eqb (snd s) 0) (T snd (or_intror eq_refl) 0%Z (or_introl eq_refl))) as [(r & R0 & R2 & RE) RL].
  destruct (least_picked undistort c SM snd (or_intror eq_refl) (fun s => Z.eqb (snd s) 8) (T snd (or_intror eq_refl) 8%Z (or_intror eq_refl))) as [(s & S0 & S2 & SE) SL].
  rewrite rectangles_picked. cbn [fst snd rx ry rw rh].
  apply Z.eqb_eq in P2, Q2, R2, S2.
  split; [ | split; [ | split; [ | split ] ] ].
  - intros z Z. split; [ | split; [ | split ] ]; intros E; apply Z.eqb_eq in E; [ specialize (PL z Z E) | specialize (QL z Z E) | specialize (RL z Z E) | specialize (SL z Z E) ]; lra.
  - exists p. split; [ exact P | split; [ exact P2 | lra ] ].
  - exists q. split; [ exact Q | split; [ exact Q2 | lra ] ].
  - exists r. split; [ exact R0 | split; [ exact R2 | lra ] ].
  - exists s. split; [ exact S0 | split; [ exact S2 | lra ] ].
Qed.
(** The matrix for the two ends of the scale. *)
Lemma optimal_at undistort c alpha w h o : (w * h <> 0)%Z -> (alpha = 1 /\ o = snd (rectangles undistort c)) \/ (alpha = 0 /\ o = fst (rectangles undistort c)) ->
  let K := optimal_matrix undistort c alpha w h in
  m00 K = IZR (w - 1) / rw o /\ m02 K = - (IZR (w - 1) / rw o) * rx o /\ m11 K = IZR (h - 1) / rh o /\ m12 K = - (IZR (h - 1) / rh o) * ry o.
Proof.
  intros N A. cbv zeta. unfold optimal_matrix. cbv zeta. destruct (Z.eqb_spec (w * h) 0) as [ E | _ ]; [ contradiction | ]. cbn [m00 m02 m11 m12].
  destruct A as [ [ -> -> ] | [ -> -> ] ].
  - split; [ ring | split; [ ring | split; ring ] ].
  - split; [ ring | split; [ ring | split; ring ] ].
Qed.
(** A scaled axis: [f = n / width], [c = - f * start]. *)
Lemma axis_in n start width x : 0 <= n -> 0 < width -> start <= x <= start + width -> 0 <= n / width * x + - (n / width) * start <= n.
Proof.
  intros N W X. replace (n / width * x + - (n / width) * start) with (n * ((x - start) / width)) by (field; lra).
  assert (0 <= (x - start) / width) by (apply Rmult_le_pos; [ lra | left; apply Rinv_0_lt_compat; exact W ]).
  assert ((x - start) / width <= 1) by (apply (Rmult_le_reg_r width); [ exact W | ]; replace ((x - start) / width * width) with (x - start) by (field; lra); lra).
  split; [ apply Rmult_le_pos; assumption | ]. rewrite <- (Rmult_1_r n) at 2. apply Rmult_le_compat_l; assumption.
Qed.
Lemma axis_low n start width x : 0 <= n -> 0 < width -> x <= start -> n / width * x + - (n / width) * start <= 0.
Proof.
  intros N W X. replace (n / width * x + - (n / width) * start) with (- (n / width * (start - x))) by ring.
  assert (0 <= n / width) by (apply Rmult_le_pos; [ exact N | left; apply Rinv_0_lt_compat; exact W ]). assert (0 <= n / width * (start - x)) by (apply Rmult_le_pos; lra). lra.
Qed.
Lemma axis_high n start width x : 0 <= n -> 0 < width -> start + width <= x -> n <= n / width * x + - (n / width) * start.
Proof.
  intros N W X. replace (n / width * x + - (n / width) * start) with (n + n / width * (x - start - width)) by (field; lra).
  assert (0 <= n / width) by (apply Rmult_le_pos; [ exact N | left; apply Rinv_0_lt_compat; exact W ]). assert (0 <= n / width * (x - start - width)) by (apply Rmult_le_pos; lra). lra.
Qed.
Lemma axis_start n start width : n / width * start + - (n / width) * start = 0.
Proof. ring. Qed.
Lemma axis_end n start width : 0 < width -> n / width * (start + width) + - (n / width) * start = n.
Proof. intros W. field. lra. Qed.

(** ** No distortion *)
Lemma quot_steps x w : (0 <= x <= 8)%Z -> (0 < w)%Z -> (0 <= Z.quot (x * w) 8 <= w)%Z.
Proof. intros X W. rewrite Z.quot_div_nonneg by nia. split; [ apply Z.div_pos; nia | apply Z.div_le_upper_bound; nia ]. Qed.
Lemma plain_rects c : spot_ok no_distortion c -> 0 < fu c -> 0 < fv c -> (1 < ru c)%Z -> (1 < rv c)%Z ->
  rectangles no_distortion c = (Rect (- cu c / fu c) (- cv c / fv c) (IZR (ru c) / fu c) (IZR (rv c) / fv c), Rect (- cu c / fu c) (- cv c / fv c) (IZR (ru c) / fu c) (IZR (rv c) / fv c)).
Proof.
  intros SM FU FV W H.
  assert (W0 : (0 < ru c)%Z) by lia. assert (H0 : (0 < rv c)%Z) by lia.
  assert (Q0 : forall w, Z.quot (0 * w) 8 = 0%Z) by (intros w; reflexivity).
  assert (Q8 : forall w, Z.quot (8 * w) 8 = w) by (intros w; rewrite Z.mul_comm; apply Z.quot_mul; lia).
  assert (EX : forall s, fst (spot no_distortion c s) = (IZR (Z.quot (fst s * ru c) 8) - cu c) / fu c) by reflexivity.
  assert (EY : forall s, snd (spot no_distortion c s) = (IZR (Z.quot (snd s * rv c) 8) - cv c) / fv c) by reflexivity.
  assert (MONO : forall f a b, 0 < f -> a <= b -> a / f <= b / f) by (intros f a b Fp AB; apply Rmult_le_compat_r; [ left; apply Rinv_0_lt_compat; exact Fp | exact AB ]).
  destruct (outer_facts no_distortion c SM) as (OA & (a1 & A1 & A1') & (a2 & A2 & A2') & (a3 & A3 & A3') & (a4 & A4 & A4')).
  destruct (inner_facts no_distortion c SM) as (_ & (b1 & B1 & B1z & B1') & (b2 & B2 & B2z & B2') & (b3 & B3 & B3z & B3') & (b4 & B4 & B4z & B4')).
  assert (Z00 : is_sample (0, 0)%Z) by (split; cbn; lia). assert (Z88 : is_sample (8, 8)%Z) by (split; cbn; lia).
  destruct (OA _ Z00) as [O1 O2]. destruct (OA _ Z88) as [O3 O4]. rewrite EX in O1, O3. rewrite EY in O2, O4. cbn [fst snd] in O1, O2, O3, O4. rewrite Q0 in O1, O2. rewrite Q8 in O3, O4.
  rewrite EX in A1', A2', B1', B2'. rewrite EY in A3', A4', B3', B4'. rewrite B1z, Q0 in B1'. rewrite B2z, Q8 in B2'. rewrite B3z, Q0 in B3'. rewrite B4z, Q8 in B4'.
  destruct A1 as [A1 _], A2 as [A2 _], A3 as [_ A3], A4 as [_ A4].
  destruct (quot_steps _ _ A1 W0) as [L1 _]. destruct (quot_steps _ _ A2 W0) as [_ L2]. destruct (quot_steps _ _ A3 H0) as [L3 _]. destruct (quot_steps _ _ A4 H0) as [_ L4].
  apply IZR_le in L1, L2, L3, L4.
  pose proof (MONO _ (0 - cu c) (IZR (Z.quot (fst a1 * ru c) 8) - cu c) FU ltac:(lra)) as M1. pose proof (MONO _ (IZR (Z.quot (fst a2 * ru c) 8) - cu c) (IZR (ru c) - cu c) FU ltac:(lra)) as M2.
  pose proof (MONO _ (0 - cv c) (IZR (Z.quot (snd a3 * rv c) 8) - cv c) FV ltac:(lra)) as M3'. pose proof (MONO _ (IZR (Z.quot (snd a4 * rv c) 8) - cv c) (IZR (rv c) - cv c) FV ltac:(lra)) as M4'.
  destruct (rectangles no_distortion c) as [ri ro]. cbn [fst snd] in *. destruct ri as [ix iy iw ih], ro as [ox oy ow oh]. cbn [rx ry rw rh] in *.
  assert (D : forall f a b, 0 < f -> (a - b) / f = a / f - b / f) by (intros f a b Fp; field; lra).
  assert (ZZ : forall f, 0 < f -> 0 / f = 0) by (intros f Fp; field; lra).
  rewrite !D, ?ZZ in * by assumption.
  assert (N1 : - cu c / fu c = 0 - cu c / fu c) by (field; lra). assert (N2 : - cv c / fv c = 0 - cv c / fv c) by (field; lra). rewrite N1, N2.
  f_equal; f_equal; lra.
Qed.
