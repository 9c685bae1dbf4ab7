(** * Proofs about fitting a segment *)
From Coq Require Import Reals List Lia Lra.
From Verif Require Import Base KinModel KinProofs RotEuler LfModel LfSpec.
Import ListNotations.
Local Open Scope R_scope.

Definition sum (g : xyweight -> R) (l : list xyweight) : R := fold_right (fun a s => pw a * g a + s) 0 l.
Lemma fold_add l s : fold_left add l s =
  Sums (s_x s + sum px l) (s_y s + sum py l) (s_xx s + sum (fun a => px a * px a) l) (s_yy s + sum (fun a => py a * py a) l) (s_xy s + sum (fun a => px a * py a) l) (s_n s + weight_of l).
Proof.
  revert s. induction l as [ | a l IH]; intros s; cbn [fold_left sum weight_of fold_right].
  - destruct s as [a1 a2 a3 a4 a5 a6]; cbn [s_x s_y s_xx s_yy s_xy s_n]. f_equal; ring.
  - rewrite IH. unfold add. cbn [s_x s_y s_xx s_yy s_xy s_n]. unfold sum, weight_of. f_equal; ring.
Qed.
(** The error of a line in terms of the sums *)
Lemma error_sums q u l :
  error q u l = fst u * fst u * (sum (fun a => py a * py a) l - 2 * snd q * sum py l + snd q * snd q * weight_of l)
    + snd u * snd u * (sum (fun a => px a * px a) l - 2 * fst q * sum px l + fst q * fst q * weight_of l)
    - 2 * (fst u * snd u) * (sum (fun a => px a * py a) l - snd q * sum px l - fst q * sum py l + fst q * snd q * weight_of l).
Proof. induction l as [ | a l IH]; cbn [error sum weight_of fold_right]; [ ring | ]. fold (error q u l). rewrite IH. unfold off, sum, weight_of. ring. Qed.

Section Fit.
Variable l : list xyweight.
Let n := weight_of l.
Hypothesis Hn : n <> 0.
Let ex := sum px l / n.
Let ey := sum py l / n.
Let cxx := sum (fun a => px a * px a) l / n - ex * ex.
Let cyy := sum (fun a => py a * py a) l / n - ey * ey.
Let cxy := sum (fun a => px a * py a) l / n - ex * ey.
Let phi := / 2 * atan2 (-2 * cxy) (cyy - cxx).
Lemma fit_line_eq : fit_line l = Some (GLine (- sin phi) (cos phi) (ex, ey) false false).
Proof.
  unfold fit_line. rewrite fold_add. cbn [s_x s_y s_xx s_yy s_xy s_n]. rewrite !Rplus_0_l. destruct (Req_EM_T (weight_of l) 0) as [Z | _]; [ contradiction | ]. reflexivity.
Qed.
Lemma error_centred q u : error q u l =
  n * (fst u * fst u * cyy + snd u * snd u * cxx - 2 * (fst u * snd u) * cxy + (fst u * (ey - snd q) - snd u * (ex - fst q)) * (fst u * (ey - snd q) - snd u * (ex - fst q))).
Proof. rewrite error_sums. unfold cxx, cyy, cxy, ex, ey. fold n. field. exact Hn. Qed.
Lemma best_direction u : is_direction u ->
  sin phi * sin phi * cyy + cos phi * cos phi * cxx + 2 * (sin phi * cos phi) * cxy <= fst u * fst u * cyy + snd u * snd u * cxx - 2 * (fst u * snd u) * cxy.
Proof.
  intros U. set (A := cyy - cxx). set (B := -2 * cxy). set (r := sqrt (A * A + B * B)).
  assert (SC : sin phi * sin phi + cos phi * cos phi = 1) by (pose proof (sin2_cos2 phi) as Q; unfold Rsqr in Q; exact Q).
  assert (L : sin phi * sin phi * cyy + cos phi * cos phi * cxx + 2 * (sin phi * cos phi) * cxy = (cxx + cyy) / 2 - r / 2).
  { assert (D1 : cos (2 * phi) = 1 - 2 * (sin phi * sin phi)) by (rewrite cos_2a_sin; ring).
    assert (D2 : sin (2 * phi) = 2 * (sin phi * cos phi)) by (rewrite sin_2a; ring).
    replace (2 * phi) with (atan2 B A) in D1, D2 by (unfold phi, A, B; field).
    assert (RA : r * cos (atan2 B A) = A /\ r * sin (atan2 B A) = B).
    { destruct (Req_EM_T (A * A + B * B) 0) as [Z | NZ].
      - assert (A = 0) by nra. assert (B = 0) by nra. unfold r. rewrite Z, sqrt_0. split; lra.
      - apply atan2_coords. pose proof (Rle_0_sqr A) as Q1. pose proof (Rle_0_sqr B) as Q2. unfold Rsqr in Q1, Q2. lra. }
    destruct RA as [RA RB]. rewrite D1 in RA. rewrite D2 in RB.
    assert (RR : r * r = A * A + B * B). { unfold r. apply sqrt_sqrt. pose proof (Rle_0_sqr A) as Q1. pose proof (Rle_0_sqr B) as Q2. unfold Rsqr in Q1, Q2. lra. }
    assert (ID : A * (1 - 2 * (sin phi * sin phi)) + B * (2 * (sin phi * cos phi)) = r).
    { destruct (Req_EM_T r 0) as [Z | NZ].
      - rewrite Z in *. rewrite Rmult_0_l in RA, RB. rewrite <- RA, <- RB. ring.
      - apply Rmult_eq_reg_l with r; [ | exact NZ ]. rewrite RR. rewrite <- RA at 2. rewrite <- RB at 2. ring. }
    unfold A, B in ID. rewrite <- ID. replace (cos phi * cos phi) with (1 - sin phi * sin phi) by lra. field. }
  rewrite L. unfold is_direction in U.
  assert (CS : - r <= A * (fst u * fst u - snd u * snd u) + B * (2 * (fst u * snd u))).
  { set (a := fst u * fst u - snd u * snd u). set (b := 2 * (fst u * snd u)). assert (AB : a * a + b * b = 1) by (unfold a, b; nra).
    destruct (Rle_lt_dec 0 (A * a + B * b)) as [P | P]; [ pose proof (sqrt_pos (A * A + B * B)); fold r in H; lra | ].
    assert (SQ : (A * a + B * b) * (A * a + B * b) <= A * A + B * B) by (pose proof (Rle_0_sqr (A * b - B * a)) as Q; unfold Rsqr in Q; nra).
    assert (LE : - (A * a + B * b) <= r); [ | lra ]. unfold r. rewrite <- (sqrt_square (- (A * a + B * b))) by lra. apply sqrt_le_1_alt. nra. }
  unfold A, B in CS. replace (fst u * fst u) with ((1 + (fst u * fst u - snd u * snd u)) / 2) by (rewrite <- U; field).
  replace (snd u * snd u) with ((1 - (fst u * fst u - snd u * snd u)) / 2) at 2 by (rewrite <- U; field). lra.
Qed.
End Fit.

(** ** The ends *)
Lemma normalize_unit l0 : fst (dx l0, dy l0) * fst (dx l0, dy l0) + snd (dx l0, dy l0) * snd (dx l0, dy l0) = 1 -> dx (normalize_slope l0) = dx l0 /\ dy (normalize_slope l0) = dy l0 /\ p (normalize_slope l0) = p l0 /\ p_done (normalize_slope l0) = p_done l0.
Proof. cbn [fst snd]. intros U. unfold normalize_slope. destruct (slope_done l0); [ auto | ]. rewrite U, sqrt_1. cbn [dx dy p p_done]. split; [ field | split; [ field | auto ] ]. Qed.
Lemma extent_ok u q : is_direction u -> forall pts l0 acc, (dx l0, dy l0) = u -> p l0 = q -> p_done l0 = false ->
  exists l1 acc', extent l0 pts acc = (l1, acc') /\ (dx l1, dy l1) = u /\ p l1 = q /\ p_done l1 = false /\
    match acc' with
    | None => pts = [] /\ acc = None
    | Some (lo, hi) =>
        (forall a, In a pts -> lo <= along u (px a, py a) <= hi) /\
        (match acc with Some (lo0, hi0) => lo <= lo0 /\ hi0 <= hi | None => True end) /\
        ((exists a, In a pts /\ lo = along u (px a, py a)) \/ (exists lo0 hi0, acc = Some (lo0, hi0) /\ lo = lo0)) /\
        ((exists a, In a pts /\ hi = along u (px a, py a)) \/ (exists lo0 hi0, acc = Some (lo0, hi0) /\ hi = hi0))
    end.
Proof.
  intros U. induction pts as [ | a pts IH]; intros l0 acc D P N; cbn [extent].
  - exists l0, acc. split; [ reflexivity | ]. split; [ exact D | ]. split; [ exact P | ]. split; [ exact N | ].
    destruct acc as [[lo hi] | ]; [ | split; reflexivity ]. split; [ intros a [] | ]. split; [ lra | ]. split; right; exists lo, hi; split; reflexivity.
  - unfold line_coordinate. destruct (normalize_unit l0) as (E1 & E2 & E3 & E4); [ rewrite D; exact U | ].
    assert (C : fst (px a, py a) * dx (normalize_slope l0) + snd (px a, py a) * dy (normalize_slope l0) = along u (px a, py a)) by (unfold along; rewrite E1, E2, <- D; reflexivity).
    rewrite C. set (c := along u (px a, py a)).
    destruct (IH (normalize_slope l0) (Some match acc with Some (lo, hi) => (Rmin lo c, Rmax hi c) | None => (c, c) end)) as (l1 & acc' & E & F1 & F2 & F3 & F4); [ rewrite E1, E2; exact D | rewrite E3; exact P | rewrite E4; exact N | ].
    exists l1, acc'. split; [ exact E | ]. split; [ exact F1 | ]. split; [ exact F2 | ]. split; [ exact F3 | ].
    destruct acc' as [[lo hi] | ]; [ | destruct F4; discriminate ]. destruct F4 as (G1 & G2 & G3 & G4).
    destruct acc as [[lo0 hi0] | ].
    + pose proof (Rmin_l lo0 c). pose proof (Rmin_r lo0 c). pose proof (Rmax_l hi0 c). pose proof (Rmax_r hi0 c).
      split; [ intros b [-> | I]; [ fold c; lra | exact (G1 b I) ] | ]. split; [ lra | ]. split.
      * destruct G3 as [(b & I & B) | (x & y & X & B)]; [ left; exists b; split; [ right; exact I | exact B ] | ]. assert (XE : x = Rmin lo0 c) by congruence. rewrite XE in B.
        unfold Rmin in B. destruct (Rle_dec lo0 c); [ right; exists lo0, hi0; split; [ reflexivity | exact B ] | left; exists a; split; [ left; reflexivity | exact B ] ].
      * destruct G4 as [(b & I & B) | (x & y & X & B)]; [ left; exists b; split; [ right; exact I | exact B ] | ]. assert (YE : y = Rmax hi0 c) by congruence. rewrite YE in B.
        unfold Rmax in B. destruct (Rle_dec hi0 c); [ left; exists a; split; [ left; reflexivity | exact B ] | right; exists lo0, hi0; split; [ reflexivity | exact B ] ].
    + split; [ intros b [-> | I]; [ fold c; lra | exact (G1 b I) ] | ]. split; [ exact I | ]. split.
      * destruct G3 as [(b & I & B) | (x & y & X & B)]; [ left; exists b; split; [ right; exact I | exact B ] | ]. left. exists a. split; [ left; reflexivity | ]. assert (XE : x = c) by congruence. rewrite XE in B. exact B.
      * destruct G4 as [(b & I & B) | (x & y & X & B)]; [ left; exists b; split; [ right; exact I | exact B ] | ]. left. exists a. split; [ left; reflexivity | ]. assert (YE : y = c) by congruence. rewrite YE in B. exact B.
Qed.
Lemma point_of_coordinate_ok u q l0 c : is_direction u -> (dx l0, dy l0) = u -> p l0 = q -> p_done l0 = false ->
  exists l1, point_of_coordinate l0 c = (l1, (fst q + (c - along u q) * fst u, snd q + (c - along u q) * snd u)) /\ 
    forall c', snd (point_of_coordinate l1 c') = (fst q + (c' - along u q) * fst u, snd q + (c' - along u q) * snd u).
Proof.
  intros U D P N. unfold point_of_coordinate at 1, normalize_p. rewrite N. cbv zeta. destruct (normalize_unit l0) as (E1 & E2 & E3 & E4); [ rewrite D; exact U | ].
  rewrite E1, E2, E3, P. cbn [dx dy p]. unfold is_direction in U. 
  assert (UX : dx l0 = fst u) by (rewrite <- D; reflexivity). assert (UY : dy l0 = snd u) by (rewrite <- D; reflexivity). rewrite UX, UY.
  assert (V : forall x, (- snd u * (- snd u * fst q + fst u * snd q) + x * fst u, fst u * (- snd u * fst q + fst u * snd q) + x * snd u) = (fst q + (x - along u q) * fst u, snd q + (x - along u q) * snd u)).
  { intros x. unfold along. f_equal.
    - replace (fst q + (x - (fst q * fst u + snd q * snd u)) * fst u) with (fst q * (1 - fst u * fst u) - snd q * snd u * fst u + x * fst u) by ring. rewrite <- U. ring.
    - replace (snd q + (x - (fst q * fst u + snd q * snd u)) * snd u) with (snd q * (1 - snd u * snd u) - fst q * fst u * snd u + x * snd u) by ring. rewrite <- U. ring. }
  eexists. split; [ cbn [fst snd]; rewrite V; reflexivity | ]. intros c'. unfold point_of_coordinate, normalize_p. cbn [p_done dx dy p fst snd]. apply V.
Qed.
