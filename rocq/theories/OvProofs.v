(** * Lemmas about the overlap *)
From Flocq Require Import Core.
From Coq Require Import Reals ZArith Bool List FinFun Lra Lia.
From Verif Require Import KinModel OvModel OvSpec.
Import ListNotations.
Local Open Scope R_scope.

Lemma apply_beam T p (d : Z) : q3 p = 0 -> 0 < q0 p ^ 2 + q1 p ^ 2 + q2 p ^ 2 -> (0 <= d)%Z -> let n := v4_norm p in
  exists s, 0 < s /\ apply T (V4 (q0 p) (q1 p) (q2 p) (n / (n + IZR d))) =
    (let q := move (rot T) (trans T) (on_beam (ray3 p) (length3 (ray3 p) + IZR d)) in V4 (s * x0 q) (s * x1 q) (s * x2 q) s).
Proof.
  intros W P D. cbv zeta. assert (N : v4_norm p = length3 (ray3 p)).
  { unfold v4_norm, length3, v4_dot, ray3. cbn [x0 x1 x2]. rewrite W. f_equal. ring. }
  rewrite N. assert (L : 0 < length3 (ray3 p)) by (apply sqrt_lt_R0; exact P). apply IZR_le in D. set (n := length3 (ray3 p)) in *.
  exists (n / (n + IZR d)). split; [ apply Rmult_lt_0_compat; [ exact L | apply Rinv_0_lt_compat; lra ] | ].
  unfold apply, move, on_beam, v3_add, v3_scale, m3_vec, v3_dot, m3_row0, m3_row1, m3_row2. fold n. unfold ray3. cbn [x0 x1 x2 q0 q1 q2 q3].
  f_equal; field; split; lra.
Qed.

(** ** Scanning one pixel *)
Lemma upd_eq f x y v : upd f x y v x y = v.
Proof. unfold upd. rewrite !Z.eqb_refl. reflexivity. Qed.
Lemma upd_ne f x y v a b : (a, b) <> (x, y) -> upd f x y v a b = f a b.
Proof. intros N. unfold upd. destruct (Z.eqb_spec a x); [ | reflexivity ]. destruct (Z.eqb_spec b y); [ | reflexivity ]. exfalso. apply N. congruence. Qed.
Lemma scan_done c2 T p x y ds st : fst st x y <> 0%Z -> scan c2 T p x y ds st = st.
Proof. intros N. destruct ds as [ | d ds]; cbn [scan]; [ reflexivity | ]. destruct (Z.eqb_spec (fst st x y) 0); [ contradiction | reflexivity ]. Qed.
Lemma scan_val c2 T p x y (view : v3 -> bool) : views c2 view -> q3 p = 0 -> 0 < q0 p ^ 2 + q1 p ^ 2 + q2 p ^ 2 ->
  forall ds, (forall d, In d ds -> (0 <= d)%Z) -> forall st, fst st x y = 0%Z ->
  scan c2 T p x y ds st =
    if existsb (fun d => view (move (rot T) (trans T) (on_beam (ray3 p) (length3 (ray3 p) + IZR d)))) ds then (upd (fst st) x y 255, (snd st + 1)%Z) else st.
Proof.
  intros V W P. induction ds as [ | d ds IH]; intros D st Z0; cbn [scan existsb]; [ reflexivity | ].
  rewrite Z0. cbn [Z.eqb]. cbv zeta. destruct (apply_beam T p d W P (D d (or_introl eq_refl))) as (s & S & E). cbv zeta in E. rewrite E, V by exact S.
  destruct (view _); cbn [orb].
  - apply scan_done. cbn [fst]. rewrite upd_eq. lia.
  - apply IH; [ intros e I; apply D; right; exact I | exact Z0 ].
Qed.

(** ** All pixels *)
Lemma pixels_all w h : pixels w h = all_pixels w h.
Proof.
  unfold pixels, all_pixels, range. generalize (seq 0 (Z.to_nat w)) as xs. generalize (seq 0 (Z.to_nat h)) as ys. intros ys xs.
  induction xs as [ | x xs IH]; [ reflexivity | ]. cbn [map list_prod flat_map]. rewrite IH. f_equal. rewrite map_map. reflexivity.
Qed.
Lemma in_all w h x y : In (x, y) (all_pixels w h) <-> (0 <= x < w /\ 0 <= y < h)%Z.
Proof.
  unfold all_pixels. rewrite in_flat_map. split.
  - intros (a & A & M). apply in_map_iff in M. destruct M as (b & E & B). apply in_seq in A, B. assert (x = Z.of_nat a) by congruence. assert (y = Z.of_nat b) by congruence. lia.
  - intros [X Y]. exists (Z.to_nat x). split; [ apply in_seq; lia | ]. apply in_map_iff. exists (Z.to_nat y). split; [ f_equal; lia | apply in_seq; lia ].
Qed.
Lemma nodup_all w h : NoDup (all_pixels w h).
Proof.
  unfold all_pixels. generalize (seq_NoDup (Z.to_nat w) 0). generalize (seq 0 (Z.to_nat w)) as xs. intros xs. induction xs as [ | x xs IH]; intros N; cbn [flat_map]; [ constructor | ].
  inversion N as [ | ? ? N1 N2 ]; subst.
  assert (NA : forall (l m : list (Z * Z)), NoDup l -> NoDup m -> (forall q, In q l -> ~ In q m) -> NoDup (l ++ m)).
  { clear. induction l as [ | a l IH]; intros m L M D; [ exact M | ]. inversion L; subst. cbn [app]. constructor.
    - intros I. apply in_app_or in I. destruct I as [I | I]; [ contradiction | apply (D a (or_introl eq_refl)); exact I ].
    - apply IH; [ assumption | exact M | ]. intros q Q. apply D. right. exact Q. }
  apply NA.
  - apply FinFun.Injective_map_NoDup; [ | apply seq_NoDup ]. intros a b E. assert (Z.of_nat a = Z.of_nat b) by congruence. lia.
  - apply IH. exact N2.
  - intros q Q I. apply in_map_iff in Q. destruct Q as (b & <- & _). apply in_flat_map in I. destruct I as (x' & X' & M). apply in_map_iff in M. destruct M as (b' & E & _).
    assert (Z.of_nat x' = Z.of_nat x) by congruence. assert (x' = x) by lia. subst x'. contradiction.
Qed.
Lemma side_val c1 c2 T ds scale (view : v3 -> bool) : views c2 view -> has_rays c1 -> (forall d, In d ds -> (0 <= d)%Z) ->
  let cov := covered c1 view (move (rot T) (trans T)) ds scale in
  forall l st, NoDup l -> (forall x y, In (x, y) l -> fst st x y = 0%Z) ->
  let r := fold_left (fun st p => match back c1 (IZR (fst p) / scale, IZR (snd p) / scale) with None => st | Some point => scan c2 T point (fst p) (snd p) ds st end) l st in
  snd r = (snd st + Z.of_nat (length (filter (fun p => cov (fst p) (snd p)) l)))%Z /\
  (forall x y, In (x, y) l -> fst r x y = if cov x y then 255%Z else 0%Z) /\ (forall x y, ~ In (x, y) l -> fst r x y = fst st x y).
Proof.
  intros V HR D. cbv zeta. induction l as [ | [a b] l IH]; intros st N Z0.
  - cbn [fold_left filter length]. split; [ lia | split; [ contradiction | reflexivity ] ].
  - inversion N as [ | ? ? N1 N2 ]; subst. cbn [fold_left fst snd].
    set (st1 := match back c1 (IZR a / scale, IZR b / scale) with None => st | Some point => scan c2 T point a b ds st end).
    assert (E : st1 = if covered c1 view (move (rot T) (trans T)) ds scale a b then (upd (fst st) a b 255, (snd st + 1)%Z) else st).
    { unfold st1, covered. destruct (back c1 (IZR a / scale, IZR b / scale)) as [p | ] eqn:B; [ | reflexivity ]. destruct (HR _ _ B) as [W P].
      apply scan_val; [ exact V | exact W | exact P | exact D | ]. apply Z0. left. reflexivity. }
    destruct (IH st1 N2) as (C & I & O).
    { intros x y X. rewrite E. assert (NE : (x, y) <> (a, b)) by (intros Q; rewrite Q in X; contradiction).
      destruct (covered _ _ _ _ _ a b); cbn [fst]; [ rewrite upd_ne by exact NE | ]; apply Z0; right; exact X. }
    split; [ | split ].
    + rewrite C. cbn [filter fst snd]. rewrite E. destruct (covered _ _ _ _ _ a b); cbn [snd length]; lia.
    + intros x y [Q | X]; [ | apply I; exact X ]. assert (x = a) by congruence. assert (y = b) by congruence. subst x y. rewrite O by exact N1. rewrite E.
      destruct (covered _ _ _ _ _ a b); cbn [fst]; [ apply upd_eq | apply Z0; left; reflexivity ].
    + intros x y X. rewrite O by (intros Q; apply X; right; exact Q). rewrite E. destruct (covered _ _ _ _ _ a b); [ | reflexivity ]. cbn [fst]. apply upd_ne. intros Q. apply X. left. symmetry. exact Q.
Qed.
Lemma one_side_val c1 c2 T ds scale (view : v3 -> bool) w h : views c2 view -> has_rays c1 -> (forall d, In d ds -> (0 <= d)%Z) ->
  let cov := covered c1 view (move (rot T) (trans T)) ds scale in
  snd (one_side c1 c2 T ds scale w h) = count w h cov /\
  (forall x y, (0 <= x < w)%Z -> (0 <= y < h)%Z -> fst (one_side c1 c2 T ds scale w h) x y = if cov x y then 255%Z else 0%Z).
Proof.
  intros V HR D. cbv zeta. unfold one_side, count. rewrite pixels_all.
  destruct (side_val c1 c2 T ds scale view V HR D (all_pixels w h) (fun _ _ => 0%Z, 0%Z) (nodup_all w h)) as (C & I & _); [ reflexivity | ].
  split; [ rewrite C; cbn [snd]; lia | ]. intros x y X Y. apply I. apply in_all. split; assumption.
Qed.
Lemma filter_le {A} (f : A -> bool) l : (length (filter f l) <= length l)%nat.
Proof. induction l as [ | a l IH]; cbn [filter length]; [ lia | ]. destruct (f a); cbn [length]; lia. Qed.
Lemma count_bounds w h f : (0 <= w)%Z -> (0 <= h)%Z -> (0 <= count w h f <= w * h)%Z.
Proof.
  intros W H. unfold count. pose proof (filter_le (fun p => f (fst p) (snd p)) (all_pixels w h)) as L.
  assert (E : length (all_pixels w h) = (Z.to_nat w * Z.to_nat h)%nat).
  { rewrite <- pixels_all. unfold pixels, range. rewrite prod_length, !map_length, !seq_length. reflexivity. }
  rewrite E in L. nia.
Qed.
Lemma move_inverse T p : move (rot (inverse T)) (trans (inverse T)) p = move_back (rot T) (trans T) p.
Proof.
  unfold move, move_back, inverse, v3_neg, m3_vec, m3_tr, v3_dot, m3_row0, m3_row1, m3_row2. cbn [rot trans x0 x1 x2 m00 m01 m02 m10 m11 m12 m20 m21 m22].
  cbv zeta. f_equal; ring.
Qed.
Lemma back_move C t p : rotation C -> move_back C t (move C t p) = p.
Proof.
  intros [E _]. destruct C as [c00 c01 c02 c10 c11 c12 c20 c21 c22], t as [t0 t1 t2], p as [p0 p1 p2].
  unfold m3_mul, m3_I, m3_tr, v3_dot, m3_row0, m3_row1, m3_row2, m3_col0, m3_col1, m3_col2 in E. cbn [x0 x1 x2 m00 m01 m02 m10 m11 m12 m20 m21 m22] in E.
  unfold move, move_back. cbn [x0 x1 x2 m00 m01 m02 m10 m11 m12 m20 m21 m22]. cbv zeta.
  pose proof (f_equal m00 E) as E00. pose proof (f_equal m01 E) as E01. pose proof (f_equal m02 E) as E02. pose proof (f_equal m11 E) as E11. pose proof (f_equal m12 E) as E12. pose proof (f_equal m22 E) as E22.
  cbn [m00 m01 m02 m11 m12 m22] in *. clear E. f_equal.
  - transitivity ((c00 * c00 + c10 * c10 + c20 * c20) * p0 + (c00 * c01 + c10 * c11 + c20 * c21) * p1 + (c00 * c02 + c10 * c12 + c20 * c22) * p2); [ ring | rewrite E00, E01, E02; ring ].
  - transitivity ((c00 * c01 + c10 * c11 + c20 * c21) * p0 + (c01 * c01 + c11 * c11 + c21 * c21) * p1 + (c01 * c02 + c11 * c12 + c21 * c22) * p2); [ ring | rewrite E01, E11, E12; ring ].
  - transitivity ((c00 * c02 + c10 * c12 + c20 * c22) * p0 + (c01 * c02 + c11 * c12 + c21 * c22) * p1 + (c02 * c02 + c12 * c12 + c22 * c22) * p2); [ ring | rewrite E02, E12, E22; ring ].
Qed.
Lemma inverse_inverse T : m3_mul (rot T) (m3_tr (rot T)) = m3_I -> inverse (inverse T) = T.
Proof.
  destruct T as [C t]. destruct C as [c00 c01 c02 c10 c11 c12 c20 c21 c22], t as [t0 t1 t2]. intros E.
  unfold m3_mul, m3_I, m3_tr, v3_dot, m3_row0, m3_row1, m3_row2, m3_col0, m3_col1, m3_col2 in E. cbn [rot x0 x1 x2 m00 m01 m02 m10 m11 m12 m20 m21 m22] in E.
  pose proof (f_equal m00 E) as E00. pose proof (f_equal m01 E) as E01. pose proof (f_equal m02 E) as E02. pose proof (f_equal m11 E) as E11. pose proof (f_equal m12 E) as E12. pose proof (f_equal m22 E) as E22.
  cbn [m00 m01 m02 m11 m12 m22] in *. clear E.
  unfold inverse, v3_neg, m3_vec, m3_tr, v3_dot, m3_row0, m3_row1, m3_row2. cbn [rot trans x0 x1 x2 m00 m01 m02 m10 m11 m12 m20 m21 m22]. f_equal. f_equal.
  - transitivity ((c00 * c00 + c01 * c01 + c02 * c02) * t0 + (c00 * c10 + c01 * c11 + c02 * c12) * t1 + (c00 * c20 + c01 * c21 + c02 * c22) * t2); [ ring | rewrite E00, E01, E02; ring ].
  - transitivity ((c00 * c10 + c01 * c11 + c02 * c12) * t0 + (c10 * c10 + c11 * c11 + c12 * c12) * t1 + (c10 * c20 + c11 * c21 + c12 * c22) * t2); [ ring | rewrite E01, E11, E12; ring ].
  - transitivity ((c00 * c20 + c01 * c21 + c02 * c22) * t0 + (c10 * c20 + c11 * c21 + c12 * c22) * t1 + (c20 * c20 + c21 * c21 + c22 * c22) * t2); [ ring | rewrite E02, E12, E22; ring ].
Qed.
Lemma scaled_fits n scale k : fits n scale k -> scaled n scale = k.
Proof.
  intros [K [L U]]. unfold scaled. apply IZR_lt in K. rewrite Ztrunc_floor by lra. apply Zfloor_imp. rewrite plus_IZR. lra.
Qed.
Lemma covered_ext c view m1 m2 ds scale x y : (forall p, m1 p = m2 p) -> covered c view m1 ds scale x y = covered c view m2 ds scale x y.
Proof.
  intros E. unfold covered. destruct (back c _) as [p | ]; [ | reflexivity ]. induction ds as [ | d ds IH]; cbn [existsb]; [ reflexivity | ]. rewrite IH, E. reflexivity.
Qed.
Lemma count_ext w h f g : (forall x y, f x y = g x y) -> count w h f = count w h g.
Proof. intros E. unfold count. f_equal. f_equal. apply filter_ext. intros [a b]. apply E. Qed.
Lemma ratio_in n w h : (0 < w)%Z -> (0 < h)%Z -> (0 <= n <= w * h)%Z -> ratio n w h = Some (IZR n / IZR (w * h)) /\ 0 <= IZR n / IZR (w * h) <= 1.
Proof.
  intros W H N. unfold ratio. destruct (Z.eqb_spec (w * h) 0) as [ | _ ]; [ nia | ]. split; [ reflexivity | ].
  assert (P : 0 < IZR (w * h)) by (apply IZR_lt; nia). destruct N as [N1 N2]. apply IZR_le in N1, N2. split.
  - apply Rmult_le_pos; [ exact N1 | left; apply Rinv_0_lt_compat; exact P ].
  - apply (Rmult_le_reg_r (IZR (w * h))); [ exact P | ]. unfold Rdiv. rewrite Rmult_assoc, Rinv_l by lra. lra.
Qed.
Lemma overlap_val c1 c2 view1 view2 T m1 m2 ds scale w1 h1 w2 h2 :
  views c1 view1 -> views c2 view2 -> has_rays c1 -> has_rays c2 -> distances ds ->
  fits (width c1) scale w1 -> fits (height c1) scale h1 -> fits (width c2) scale w2 -> fits (height c2) scale h2 ->
  let f1 := covered c1 view2 (move_back (rot T) (trans T)) ds scale in
  let f2 := covered c2 view1 (move (rot T) (trans T)) ds scale in
  exists i1 i2, overlap c1 c2 T m1 m2 ds scale =
    ((written m1 w1 h1 i1 scale, written m2 w2 h2 i2 scale), (ratio (count w1 h1 f1) w1 h1, ratio (count w2 h2 f2) w2 h2)) /\
    (forall x y, (0 <= x < w1)%Z -> (0 <= y < h1)%Z -> i1 x y = if f1 x y then 255%Z else 0%Z) /\
    (forall x y, (0 <= x < w2)%Z -> (0 <= y < h2)%Z -> i2 x y = if f2 x y then 255%Z else 0%Z).
Proof.
  intros V1 V2 R1 R2 D W1 H1 W2 H2. cbv zeta. unfold overlap. rewrite (scaled_fits _ _ _ W1), (scaled_fits _ _ _ H1), (scaled_fits _ _ _ W2), (scaled_fits _ _ _ H2).
  destruct (one_side_val c1 c2 (inverse T) ds scale view2 w1 h1 V2 R1 D) as [C1 I1]. destruct (one_side_val c2 c1 T ds scale view1 w2 h2 V1 R2 D) as [C2 I2].
  eexists. eexists. split; [ | split; [ | exact I2 ] ].
  - cbv zeta. rewrite C1, C2. rewrite (count_ext w1 h1 _ (covered c1 view2 (move_back (rot T) (trans T)) ds scale)); [ reflexivity | ]. intros x y. apply covered_ext. apply move_inverse.
  - intros x y X Y. rewrite (I1 x y X Y). rewrite (covered_ext c1 view2 _ (move_back (rot T) (trans T))); [ reflexivity | ]. apply move_inverse.
Qed.
Lemma written_sized m w h f scale : sized m w h -> buf (written m w h f scale) = Image h w f.
Proof. intros [A B]. unfold written. cbn [buf]. rewrite A, B, !Z.eqb_refl. reflexivity. Qed.
Lemma written_other m w h f scale : ~ sized m w h -> buf (written m w h f scale) = buf m.
Proof.
  intros N. unfold written. cbn [buf]. destruct (Z.eqb_spec (rows (buf m)) h) as [A | ]; [ | reflexivity ]. destruct (Z.eqb_spec (cols (buf m)) w) as [B | ]; [ | reflexivity ].
  exfalso. apply N. split; assumption.
Qed.
